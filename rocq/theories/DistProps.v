(** Properties C37-C42 and C62-C64: probability distributions. *)
From Coq Require Import List ZArith Lia Bool Reals Lra.
From Verif Require Import PyCommon CommonProofs UtilsModel UtilsSpec UtilsProofs2 UtilsProofs3 WrappersModel WrappersProofs DistModel DistSpec DistProofs DistProofs2 DistProofs3.
Import ListNotations.
Local Open Scope R_scope.

(** C37: log_proba of the one-hot vectors are the logs of positive numbers summing to one, in the proportions exp(logit); mean
    returns these numbers. *)
Theorem C37_probabilities : forall n z, (1 <= n)%nat -> length z = n ->
  exists p, length p = n /\ pos_distribution p /\ cat_mean n z = Ok p /\ (forall a, (a < n)%nat -> cat_log_proba n z (one_hot n a) = Ok (ln (nth a p 0))) /\
  (forall a b, (a < n)%nat -> (b < n)%nat -> nth a p 0 / nth b p 0 = exp (nth a z 0 - nth b z 0)).
Proof.
  intros n z Hn Hz. exists (softmax z). split; [now rewrite softmax_length|]. split; [apply softmax_dist; now apply (nonempty Hn)|]. split; [unfold cat_mean; now rewrite (check_ok _ Hz)|].
  split; [intros; now apply cat_log_proba_one_hot|intros; now apply (@cat_ratio n z Hn Hz)].
Qed.
Print Assumptions C37_probabilities.
(** C37: adding a constant to all logits changes none of the functions. *)
Theorem C37_shift_invariant : forall n z c, (1 <= n)%nat -> length z = n -> let z' := map (fun x => x + c) z in
  cat_mean n z' = cat_mean n z /\ (forall x, cat_log_proba n z' x = cat_log_proba n z x) /\ (forall tau, cat_mode n tau z' = cat_mode n tau z) /\
  (forall tau us, cat_sample n tau z' us = cat_sample n tau z us) /\ cat_entropy n z' = cat_entropy n z /\
  (forall q, length q = n -> cat_kl n z' q = cat_kl n z q /\ cat_kl n q z' = cat_kl n q z /\ cat_cross_entropy n z' q = cat_cross_entropy n z q /\ cat_cross_entropy n q z' = cat_cross_entropy n q z).
Proof.
  intros n z c Hn Hz z'. pose proof (nonempty Hn Hz) as NE. assert (Hz' : length z' = n) by (unfold z'; now rewrite map_length). assert (E : log_softmax z' = log_softmax z) by now apply log_softmax_shift.
  assert (E2 : softmax z' = softmax z). { rewrite <- (softmax_of_log NE), <- E. symmetry. apply softmax_of_log. now apply (nonempty Hn). }
  unfold cat_mean, cat_log_proba, cat_mode, cat_sample, cat_entropy, cat_kl, cat_cross_entropy. rewrite (check_ok _ Hz), (check_ok _ Hz'). cbn [bind].
  split; [now rewrite E2|]. split; [intros x; destruct (check_n n x); cbn [bind]; now rewrite ?E|]. split; [intros; now rewrite E|]. split; [intros; now rewrite E|]. split; [now rewrite E|].
  intros q Hq. rewrite (check_ok _ Hq). cbn [bind]. rewrite E, E2. auto.
Qed.
Print Assumptions C37_shift_invariant.
(** C37: mode is a distribution whose largest entries are exactly the categories with the largest logit. *)
Theorem C37_mode : forall n tau z, (1 <= n)%nat -> length z = n -> 0 < tau ->
  exists m, cat_mode n tau z = Ok m /\ length m = n /\ pos_distribution m /\ (forall a, maximal_at m a <-> maximal_at z a).
Proof. exact mode_spec. Qed.
Print Assumptions C37_mode.
(** C37: a sample is a distribution whose largest entry is where logit plus gumbel noise is largest. *)
Theorem C37_sample : forall n tau z us, (1 <= n)%nat -> length z = n -> length us = n -> 0 < tau ->
  exists m, cat_sample n tau z us = Ok m /\ length m = n /\ pos_distribution m /\ (forall a, maximal_at m a <-> maximal_at (zipw (fun u x => - ln (- ln u) + x) us z) a).
Proof. exact sample_spec. Qed.
Print Assumptions C37_sample.
(** C37: entropy lies in [0, log n]; it is log n exactly for constant logits. *)
Theorem C37_entropy : forall n z, (1 <= n)%nat -> length z = n ->
  exists h, cat_entropy n z = Ok h /\ 0 <= h <= ln (INR n) /\ (h = ln (INR n) <-> forall a b, (a < n)%nat -> (b < n)%nat -> nth a z 0 = nth b z 0).
Proof.
  intros n z Hn Hz. exists (H (softmax z)). split; [now apply cat_entropy_H|]. pose proof (nonempty Hn Hz) as NE. pose proof (softmax_dist NE) as PD.
  destruct (@H_bounds (softmax z) n PD) as [B U]; [now rewrite softmax_length|auto|]. split; auto. assert (N0 : 0 < INR n) by (apply lt_0_INR; lia). split.
  - intros E a b Ha Hb. specialize (U E). pose proof (@cat_ratio n z Hn Hz a b Ha Hb) as Q. rewrite (U a Ha), (U b Hb) in Q. replace (/ INR n / / INR n) with 1 in Q by (field; lra). rewrite <- exp_0 in Q. apply exp_inv in Q. lra.
  - intros E. assert (V : forall k, (k < n)%nat -> nth k (softmax z) 0 = / INR n).
    { intros k Hk. destruct PD as [_ T]. rewrite <- (map_nth_seq (softmax z) 0), softmax_length, Hz in T. rewrite (@total_ext _ _ (fun _ => nth k (softmax z) 0)) in T.
      - rewrite total_const, seq_length in T. apply (Rmult_eq_reg_l (INR n)); [|lra]. rewrite T. field. lra.
      - intros j Hj. apply in_seq in Hj. rewrite !nth_softmax by lia. rewrite (E j k) by lia. reflexivity. }
    unfold H, expect. rewrite (@total_ext _ _ (fun _ => / INR n * ln (INR n))).
    + rewrite total_const, seq_length, softmax_length, Hz. field. lra.
    + intros k Hk. apply in_seq in Hk. rewrite softmax_length, Hz in Hk. rewrite V by lia. rewrite ln_Rinv by auto. lra.
Qed.
Print Assumptions C37_entropy.
(** C37: an action survives preprocess_variate and postprocess_variate. *)
Theorem C37_roundtrip : forall n a gs, (a < n)%nat -> length gs = n -> (forall g, In g gs -> -50 < g < 50) -> cat_post n (one_hot n a) gs = Ok a.
Proof. exact cat_roundtrip. Qed.
Print Assumptions C37_roundtrip.
Theorem C37_rejects : forall n z x, (length z <> n -> cat_mean n z = Err EValue /\ (forall tau, cat_mode n tau z = Err EValue) /\ cat_entropy n z = Err EValue /\ (length x = n -> cat_log_proba n z x = Err EValue)) /\
  (length x <> n -> cat_log_proba n z x = Err EValue).
Proof. exact cat_rejects. Qed.
Print Assumptions C37_rejects.
Example C37_example : exists p, cat_mean 2 [0; ln 3] = Ok p /\ nth 0 p 0 = 1 / 4 /\ nth 1 p 0 = 3 / 4.
Proof. eexists. split; [reflexivity|]. cbn. rewrite exp_0, exp_ln by lra. split; field. Qed.

(** C38, categorical. *)
Theorem C38_categorical : forall n zp zq, (1 <= n)%nat -> length zp = n -> length zq = n ->
  exists h c k, cat_entropy n zp = Ok h /\ cat_cross_entropy n zp zq = Ok c /\ cat_kl n zp zq = Ok k /\ c = h + k /\ 0 <= k /\ (k = 0 <-> forall x, cat_log_proba n zp x = cat_log_proba n zq x).
Proof. exact cat_div_spec. Qed.
Print Assumptions C38_categorical.
(** C38, categorical: kl_divergence is the expectation of the difference of the log-probabilities. *)
Theorem C38_categorical_value : forall n zp zq p q, (1 <= n)%nat -> cat_mean n zp = Ok p -> cat_mean n zq = Ok q -> cat_entropy n zp = Ok (H p) /\ cat_kl n zp zq = Ok (KL p q).
Proof.
  intros n zp zq p q Hn Hp Hq. unfold cat_mean, check_n in Hp, Hq. destruct (Nat.eqb_spec (length zp) n) as [Lp|]; [|discriminate]. destruct (Nat.eqb_spec (length zq) n) as [Lq|]; [|discriminate].
  cbn in Hp, Hq. injection Hp as <-. injection Hq as <-. split; [now apply cat_entropy_H|]. now apply KL_softmax.
Qed.
Print Assumptions C38_categorical_value.
(** C38, normal. *)
Theorem C38_normal : forall D p q, fits_norm D p -> fits_norm D q ->
  exists h c k, n_entropy D p = Ok h /\ n_cross_entropy D p q = Ok c /\ n_kl D p q = Ok k /\ c = h + k /\ 0 <= k /\ (k = 0 <-> forall x, n_log_proba D p x = n_log_proba D q x).
Proof. exact n_div_spec. Qed.
Print Assumptions C38_normal.
(** C38, any nesting of categorical and normal distributions. *)
Theorem C38_composite : forall d p q, fits d p -> fits d q ->
  exists h c k, c_entropy d p = Ok h /\ c_cross_entropy d p q = Ok c /\ c_kl d p q = Ok k /\ c = h + k /\ 0 <= k /\ (k = 0 <-> same_dist d p q).
Proof. exact c_div_spec. Qed.
Print Assumptions C38_composite.
(** C38: parameters without a component of the structure are refused by all three. *)
Theorem C38_missing_component : forall k d l p q, (dget k p = None \/ dget k q = None) -> c_kl (CNode ((k, d) :: l)) (PNode p) (PNode q) = Err EKey /\ c_cross_entropy (CNode ((k, d) :: l)) (PNode p) (PNode q) = Err EKey /\
  (dget k p = None -> c_entropy (CNode ((k, d) :: l)) (PNode p) = Err EKey).
Proof.
  intros k d l p q H. unfold c_kl, c_cross_entropy, c_entropy. cbn [csum2]. split; [|split].
  - destruct (dget k p), (dget k q); auto. destruct H; discriminate.
  - destruct (dget k p), (dget k q); auto. destruct H; discriminate.
  - intros ->. reflexivity.
Qed.
Print Assumptions C38_missing_component.
Example C38_missing_component_ex : dget 1 [(0%nat, PCat [0; 1])] = None. Proof. reflexivity. Qed.
Example C38_example : fits (CNode [(0%nat, CCat 2); (1%nat, CNode [(7%nat, CNorm (mkND 1 (-20) 20))])])
  (PNode [(0%nat, PCat [0; 1]); (1%nat, PNode [(7%nat, PNorm (mkN [3] [0]))])]).
Proof. cbn. split; [eexists; split; [reflexivity|cbn; auto with arith]|]. split; auto. eexists. split; [reflexivity|]. cbn. split; auto. eexists. split; [reflexivity|]. cbn. split; reflexivity. Qed.

(** C62: log_proba of NormalDist is the log of the product of the gaussian densities with variance exp(clipped logvar). *)
Theorem C62_density : forall D p x, fits_norm D p -> length x = nd_dim D ->
  n_log_proba D p x = Ok (ln (product (joint (n_mu p) (map (fun v => Rmin (Rmax v (nd_clo D)) (nd_chi D)) (n_logvar p)) x))).
Proof. exact n_log_proba_spec. Qed.
Print Assumptions C62_density.
(** C62: a sample is mean + standard deviation * noise, with the same clipped variance. *)
Theorem C62_sample : forall D p es k, fits_norm D p -> length es = nd_dim D -> (k < nd_dim D)%nat ->
  exists x, n_sample D p es = Ok x /\ length x = nd_dim D /\ nth k x 0 = nth k (n_mu p) 0 + sqrt (exp (Rmin (Rmax (nth k (n_logvar p) 0) (nd_clo D)) (nd_chi D))) * nth k es 0.
Proof.
  intros D p es k [Hm Hl] He Hk. unfold n_sample. rewrite (check_ok _ Hm), (check_logvar_ok _ _ Hl). cbn [bind]. eexists. split; [reflexivity|].
  assert (L1 : length (zipw Rmult (map (fun x => exp (x / 2)) (clipped D (n_logvar p))) es) = nd_dim D) by (rewrite zipw_length; rewrite map_length, clipped_length; lia). split; [rewrite zipw_length; lia|].
  rewrite (@nth_zipw Rplus _ _ k 0 0 0) by lia. rewrite (@nth_zipw Rmult _ _ k 0 0 0) by (rewrite map_length, clipped_length; lia). f_equal. f_equal.
  rewrite (@nth_map0 (fun x => exp (x / 2)) _ k 0) by (rewrite clipped_length; lia). unfold clipped. rewrite (@nth_map0 (fun x => clip x (nd_clo D) (nd_chi D)) _ k 0) by lia. unfold clip. set (c := Rmin _ _).
  replace (exp c) with (exp (c / 2) * exp (c / 2)) by (rewrite <- exp_plus; f_equal; lra). symmetry. apply sqrt_square. left. apply exp_pos.
Qed.
Print Assumptions C62_sample.
Example C62_example : fits_norm (mkND 2 (-20) 20) (mkN [1; 2] [0; 30]) /\ length [1; 1] = 2%nat.
Proof. repeat split. Qed.

(** C62: mean and mode return mu, the only point with the largest density. *)
Lemma quad_zero : forall x mu lv, length x = length mu -> length lv = length mu ->
  0 <= dot (map Rsqr (zipw Rminus x mu)) (map (fun v => exp (- v)) lv) /\ (dot (map Rsqr (zipw Rminus x mu)) (map (fun v => exp (- v)) lv) = 0 <-> x = mu).
Proof.
  induction x as [|y x IH]; intros [|m mu] [|v lv] Hx Hl; cbn in Hx, Hl; try lia; [unfold dot; cbn; split; [lra|split; auto]|].
  destruct (IH mu lv ltac:(lia) ltac:(lia)) as [I1 I2]. cbn [zipw map combine] in *. change (dot (Rsqr (y - m) :: map Rsqr (zipw Rminus x mu)) (exp (- v) :: map (fun v => exp (- v)) lv)) with (Rsqr (y - m) * exp (- v) + dot (map Rsqr (zipw Rminus x mu)) (map (fun v => exp (- v)) lv)). pose proof (exp_pos (- v)) as E. pose proof (Rle_0_sqr (y - m)) as Q. assert (0 <= Rsqr (y - m) * exp (- v)) by (apply Rmult_le_pos; lra). split; [lra|]. split.
  - intros Z. assert (Z1 : Rsqr (y - m) * exp (- v) = 0) by lra. f_equal; [|apply I2; lra]. apply Rmult_integral in Z1 as [Z1|Z1]; [|lra]. apply Rsqr_0_uniq in Z1. lra.
  - intros Z. injection Z as -> ->. rewrite (proj2 I2 eq_refl). rewrite Rminus_diag_eq by auto. unfold Rsqr. lra.
Qed.
Theorem C62_mode : forall D p, fits_norm D p -> exists m, n_mean D p = Ok m /\ length m = nd_dim D /\ (forall k, (k < nd_dim D)%nat -> nth k m 0 = nth k (n_mu p) 0) /\
  forall x, length x = nd_dim D -> exists at_x at_m, n_log_proba D p x = Ok at_x /\ n_log_proba D p m = Ok at_m /\ at_x <= at_m /\ (at_x = at_m -> x = m).
Proof.
  intros D p [Hm Hl]. exists (n_mu p). unfold n_mean. rewrite (check_ok _ Hm). split; [reflexivity|]. split; [exact Hm|]. split; [reflexivity|]. intros x Hx. unfold n_log_proba. rewrite (check_ok _ Hm), (check_ok _ Hx), (check_logvar_ok _ _ Hl). cbn [bind]. eexists. eexists. split; [reflexivity|]. split; [reflexivity|].
  destruct (@quad_zero x (n_mu p) (clipped D (n_logvar p))) as [A B]; [congruence|rewrite clipped_length; congruence|]. destruct (@quad_zero (n_mu p) (n_mu p) (clipped D (n_logvar p))) as [_ C]; [congruence|rewrite clipped_length; congruence|]. rewrite (proj2 C eq_refl). split; [lra|]. intros E. apply B. lra.
Qed.
Print Assumptions C62_mode.
Theorem C62_mean_rejects : forall D p, length (n_mu p) <> nd_dim D -> n_mean D p = Err EValue.
Proof. intros D p H. unfold n_mean, check_n. now rewrite (proj2 (Nat.eqb_neq _ _) H). Qed.
Print Assumptions C62_mean_rejects.
(** C39 is false: the scale is not applied to the mean. *)
Theorem C39_mean_refuted : exists D scale shift mu lv, nd_clo D <= lv <= nd_chi D /\ fst (n_affine D (fun x => x) (fun x => x) scale shift mu lv) <> scale * mu + shift.
Proof. exists (mkND 1 (-20) 20), 2, 0, 1, 0. cbn. split; lra. Qed.
Print Assumptions C39_mean_refuted.
(** C39: exactly when the mean is right. *)
Theorem C39_mean_partial : forall D scale shift mu lv, fst (n_affine D (fun x => x) (fun x => x) scale shift mu lv) = scale * mu + shift <-> scale = 1 \/ mu = 0.
Proof.
  intros. unfold n_affine. cbn [fst]. split.
  - intros E. assert (Z : (scale - 1) * mu = 0) by lra. apply Rmult_integral in Z. destruct Z; [left|right]; lra.
  - intros [->| ->]; lra.
Qed.
Print Assumptions C39_mean_partial.
(** C39: the variance that all functions use afterwards is scale^2 times the variance, clipped to the allowed range. *)
Theorem C39_variance : forall D scale shift mu lv, nd_clo D <= nd_chi D ->
  let var := exp (Rmin (Rmax lv (nd_clo D)) (nd_chi D)) in
  exists lv', xclip (snd (n_affine D (fun x => x) (fun x => x) scale shift mu lv)) (nd_clo D) (nd_chi D) = Some lv' /\
    exp lv' = Rmin (Rmax (scale * scale * var) (exp (nd_clo D))) (exp (nd_chi D)).
Proof. intros D scale shift mu lv HD var. destruct (n_affine_spec D scale shift mu lv HD) as [_ E]. exact E. Qed.
Print Assumptions C39_variance.
Example C39_example : nd_clo (mkND 1 (-20) 20) <= nd_chi (mkND 1 (-20) 20). Proof. cbn. lra. Qed.

(** C40: postprocessing maps every real number into the open interval; n_bounds only shrinks the Box. *)
Theorem C40_post_in_box : forall lo hi cl ch l h rlo rhi x, n_bounds lo hi cl ch = Ok (l, h) ->
  (l < n_post l h rlo rhi x < h) /\ (forall b, lo = Some b -> b <= l) /\ (forall b, hi = Some b -> h <= b) /\ cl <= l /\ h <= ch.
Proof.
  intros lo hi cl ch l h rlo rhi x E. unfold n_bounds in E. destruct (Rlt_dec _ _) as [L|]; [|discriminate]. injection E as El Eh. rewrite El, Eh in L.
  split; [unfold n_post; pose proof (sigmoid_bounds (clip x rlo rhi)); split; nra|]. subst l h.
  split; [intros b ->; apply Rmax_l|]. split; [intros b ->; apply Rmin_l|]. split; [destruct lo; [apply Rmax_r|lra]|destruct hi; [apply Rmin_r|lra]].
Qed.
Print Assumptions C40_post_in_box.
(** C40: what preprocessing followed by postprocessing does to any number, with the default clip_reals. *)
Theorem C40_post_pre : forall l h x, l < h -> n_post l h (-30) 30 (n_pre l h x) = l + (h - l) * Rmin (Rmax ((Rmin (Rmax x l) h - l) / (h - l)) (sigmoid (-30))) (sigmoid 30).
Proof. exact n_post_pre. Qed.
Print Assumptions C40_post_pre.
(** C40: the identity where the clipping is inactive. *)
Theorem C40_identity : forall l h x, l < h -> l + (h - l) * sigmoid (-30) <= x <= h - (h - l) * sigmoid (-30) -> n_post l h (-30) 30 (n_pre l h x) = x.
Proof.
  intros l h x Hlh Hx. rewrite n_post_pre by auto. pose proof (sigmoid_bounds (-30)) as B. assert (O : sigmoid 30 = 1 - sigmoid (-30)) by (rewrite <- sigmoid_opp; f_equal; lra).
  rewrite (@clip_in x l h) by (split; nra). assert (I : 0 < / (h - l)) by (apply Rinv_0_lt_compat; lra). assert (J : (h - l) * / (h - l) = 1) by (apply Rinv_r; lra).
  rewrite clip_in; [field; lra|]. unfold Rdiv. split; apply (Rmult_le_reg_l (h - l)); try lra; replace ((h - l) * ((x - l) * / (h - l))) with (x - l) by (field; lra); nra.
Qed.
Print Assumptions C40_identity.
(** C40: everywhere in the interval the error is at most (h-l) * sigmoid(-30). *)
Theorem C40_error : forall l h x, l < h -> l <= x <= h -> Rabs (n_post l h (-30) 30 (n_pre l h x) - x) <= (h - l) * sigmoid (-30).
Proof.
  intros l h x Hlh Hx. rewrite n_post_pre by auto. rewrite (@clip_in x l h) by lra. pose proof (sigmoid_bounds (-30)) as B. assert (O : sigmoid 30 = 1 - sigmoid (-30)) by (rewrite <- sigmoid_opp; f_equal; lra).
  set (s := (x - l) / (h - l)). assert (X : x = l + (h - l) * s) by (unfold s; field; lra). assert (S : 0 <= s <= 1) by (split; nra).
  assert (SL : sigmoid (-30) <= sigmoid 30) by (apply sigmoid_le; lra).
  assert (C : - sigmoid (-30) <= clip s (sigmoid (-30)) (sigmoid 30) - s <= sigmoid (-30)).
  { destruct (Rle_or_lt s (sigmoid (-30))); [rewrite clip_low by lra; lra|]. destruct (Rle_or_lt (sigmoid 30) s); [rewrite clip_high by lra; lra|]. rewrite clip_in by lra. lra. }
  fold s. rewrite X at 1. replace (l + (h - l) * clip s (sigmoid (-30)) (sigmoid 30) - (l + (h - l) * s)) with ((h - l) * (clip s (sigmoid (-30)) (sigmoid 30) - s)) by ring. apply Rabs_le. split; nra.
Qed.
Print Assumptions C40_error.
(** C40: the other way round. *)
Theorem C40_pre_post : forall l h x, l < h -> n_pre l h (n_post l h (-30) 30 x) = Rmin (Rmax x (-30)) 30.
Proof. exact n_pre_post. Qed.
Print Assumptions C40_pre_post.
Example C40_example : n_bounds (Some (-2)) None (-1000) 1000 = Ok (-2, 1000) /\ -2 < 1000.
Proof. split; [|lra]. unfold n_bounds. rewrite Rmax_left by lra. destruct (Rlt_dec (-2) 1000); [auto|lra]. Qed.

(** C41, unit Box in one dimension: exp(log_proba) is the density of tanh of the normal variate, that is, the derivative of the
    distribution function (any antiderivative F of the gaussian density, taken at the preimage). *)
Theorem C41_unit_box_partial : forall a b mu lv y F inv, -1 + / 10000000 <= y <= 1 - / 10000000 -> inverse_of_tanh inv ->
  antiderivative F (gauss mu (exp (Rmin (Rmax lv a) b))) ->
  exists lp, s_log_proba (mkSD [-1] [1] (Some (a, b))) (mkN [mu] [lv]) [y] = Ok lp /\ (forall y', -1 < y' < 1 -> F (inv y') = F (arctanh y')) /\ derivable_pt_lim (fun y => F (arctanh y)) y (exp lp).
Proof.
  intros a b mu lv y F inv Hy Hi HF. eexists. split; [apply (s_log_proba_formula (mkSD [-1] [1] (Some (a, b))) (mkN [mu] [lv]) [y] eq_refl); auto; intros y' [<-|[]]; exact Hy|]. split.
  - intros y' Hy'. f_equal. rewrite <- (arctanh_tanh (inv y')). now rewrite Hi.
  - cbn [n_mu n_logvar map squashed_joint product fold_right]. rewrite Rmult_1_r. assert (Y : -1 < y < 1) by lra. rewrite exp_ln by (apply Rmult_lt_0_compat; [apply gauss_pos, exp_pos|apply Rinv_0_lt_compat; nra]).
    apply (@pushforward F (gauss mu (exp (clip lv a b))) y HF Y).
Qed.
Print Assumptions C41_unit_box_partial.
(** C41, unit Box in d dimensions: the log of the product of the one-dimensional densities. *)
Theorem C41_product_partial : forall S a b p x, sd_clip S = Some (a, b) -> length (sd_lo S) = length x -> length (n_mu p) = length x -> length (n_logvar p) = length x ->
  (forall y, In y x -> -1 + / 10000000 <= y <= 1 - / 10000000) ->
  s_log_proba S p x = Ok (ln (product (squashed_joint (n_mu p) (map (fun v => Rmin (Rmax v a) b) (n_logvar p)) x))).
Proof. exact s_log_proba_formula. Qed.
Print Assumptions C41_product_partial.
(** C41 is false for other boxes: on [-2, 2] the density at 0 is off by a factor 2. *)
Theorem C41_box_refuted : exists S p y lp, s_log_proba S p [y] = Ok lp /\ sd_lo S = [-2] /\ sd_hi S = [2] /\ (forall x, squash S [x] = [2 * tanh x]) /\
  forall F, antiderivative F (gauss (nth 0 (n_mu p) 0) (exp (nth 0 (n_logvar p) 0))) -> exists dens, derivable_pt_lim (fun y => F (arctanh (y / 2))) y dens /\ 0 < dens /\ exp lp = 2 * dens.
Proof.
  exists (mkSD [-2] [2] (Some (-20, 20))), (mkN [0] [0]), 0. eexists. split; [apply (s_log_proba_formula (mkSD [-2] [2] (Some (-20, 20))) (mkN [0] [0]) [0] eq_refl); auto; intros y' [<-|[]]; unfold arctanh_eps; lra|].
  split; [reflexivity|]. split; [reflexivity|]. split; [intros x; cbn; f_equal; lra|]. intros F HF. cbn [n_mu n_logvar nth] in HF. exists (gauss 0 (exp 0) (arctanh 0) / (1 - 0 * 0) * (/ 2)).
  assert (A0 : clip 0 (-20) 20 = 0) by (apply clip_in; lra). cbn [n_mu n_logvar map squashed_joint product fold_right]. rewrite A0.
  assert (G : 0 < gauss 0 (exp 0) (arctanh 0) / (1 - 0 * 0)) by (apply Rmult_lt_0_compat; [apply gauss_pos, exp_pos|apply Rinv_0_lt_compat; lra]).
  split; [|split; [lra|rewrite Rmult_1_r, exp_ln by auto; lra]].
  assert (D : derivable_pt_lim (fun y => y / 2) 0 (/ 2)). { pose proof (derivable_pt_lim_scal id (/ 2) 0 1 (derivable_pt_lim_id 0)) as D. rewrite Rmult_1_r in D. intros e He. destruct (D e He) as [d Hd]. exists d. intros h Hh Hh2. specialize (Hd h Hh Hh2). unfold mult_real_fct, id in Hd. replace (((0 + h) / 2 - 0 / 2) / h - / 2) with ((/ 2 * (0 + h) - / 2 * 0) / h - / 2) by (unfold Rdiv; ring). exact Hd. }
  assert (Z : 0 / 2 = 0) by lra. assert (P : derivable_pt_lim (fun y => F (arctanh y)) (0 / 2) (gauss 0 (exp 0) (arctanh 0) / (1 - 0 * 0))). { rewrite Z. apply (@pushforward F (gauss 0 (exp 0)) 0 HF). lra. }
  exact (derivable_pt_lim_comp (fun y => y / 2) (fun y => F (arctanh y)) 0 _ _ D P).
Qed.
Print Assumptions C41_box_refuted.
(** C41 is false for the default clip_logvar: log_proba and sample raise TypeError. *)
Theorem C41_default_clip_refuted : forall lo hi p x es, s_log_proba (mkSD lo hi None) p x = Err EType /\ s_sample (mkSD lo hi None) p es = Err EType.
Proof. intros. split; reflexivity. Qed.
Print Assumptions C41_default_clip_refuted.
(** C41: squashed samples lie inside the Box. *)
Theorem C41_in_box : forall S a b p es, sd_clip S = Some (a, b) -> fits_norm (mkND (length (sd_lo S)) a b) p -> length (sd_hi S) = length (sd_lo S) -> length es = length (sd_lo S) ->
  (forall k, (k < length (sd_lo S))%nat -> nth k (sd_lo S) 0 < nth k (sd_hi S) 0) ->
  exists x, s_sample S p es = Ok x /\ length x = length (sd_lo S) /\ forall k, (k < length (sd_lo S))%nat -> nth k (sd_lo S) 0 < nth k x 0 < nth k (sd_hi S) 0.
Proof.
  intros S a b p es HS Fp Hh He HB. unfold s_sample, sd_normal. rewrite HS. cbn [bind]. pose proof Fp as [Hm Hl]. cbn in Hm, Hl. unfold n_sample. cbn [nd_dim].
  rewrite (check_ok _ Hm), (check_logvar_ok (mkND (length (sd_lo S)) a b) _ Hl). cbn [bind]. eexists. split; [reflexivity|].
  match goal with |- length (squash S ?v) = _ /\ _ => set (x := v) end. assert (L : length x = length (sd_lo S)). { unfold x. rewrite zipw_length; [lia|]. rewrite zipw_length; rewrite map_length, clipped_length; lia. }
  split.
  - unfold squash, sd_scale, sd_offset. rewrite !zipw_length; rewrite ?map_length; rewrite ?zipw_length; rewrite ?map_length; rewrite ?zipw_length; lia.
  - intros k Hk. apply (@squash_in_box S x k); auto; lia.
Qed.
Print Assumptions C41_in_box.
(** C41: mean and mode: the image of mu, inside the Box; they do not need clip_logvar. *)
Theorem C41_mode : forall S p, length (n_mu p) = length (sd_lo S) -> length (sd_hi S) = length (sd_lo S) -> (forall k, (k < length (sd_lo S))%nat -> nth k (sd_lo S) 0 < nth k (sd_hi S) 0) ->
  exists x, s_mean S p = Ok x /\ length x = length (sd_lo S) /\ forall k, (k < length (sd_lo S))%nat ->
    nth k x 0 = (nth k (sd_lo S) 0 + nth k (sd_hi S) 0) / 2 + (nth k (sd_hi S) 0 - nth k (sd_lo S) 0) / 2 * tanh (nth k (n_mu p) 0) /\ nth k (sd_lo S) 0 < nth k x 0 < nth k (sd_hi S) 0.
Proof.
  intros S p Hm Hh HB. unfold s_mean. rewrite (check_ok _ Hm). cbn [bind]. eexists. split; [reflexivity|]. set (x := n_mu p) in *. unfold squash, sd_scale, sd_offset. split; [rewrite !zipw_length; rewrite ?map_length; rewrite ?zipw_length; rewrite ?map_length; rewrite ?zipw_length; lia|].
  intros k Hk. split; [|apply (@squash_in_box S x k); auto; lia]. rewrite (@nth_zipw Rplus _ _ k 0 0 0) by (rewrite ?zipw_length; rewrite ?map_length; rewrite ?zipw_length; lia). rewrite (@nth_zipw Rmult _ _ k 0 0 0) by (rewrite ?map_length; rewrite ?zipw_length; lia). rewrite (@nth_map0 tanh x k 0) by lia. rewrite !(@nth_zipw _ (sd_hi S) (sd_lo S) k 0 0 0) by lia. lra.
Qed.
Print Assumptions C41_mode.
(** C41: mean is not the mean of the samples: with mu = 1, for any noise e and -e, the two samples lie on average strictly below it. *)
Lemma tanh_pair : forall e, e <> 0 -> (tanh (1 + e) + tanh (1 - e)) / 2 < tanh 1.
Proof.
  assert (T : forall x, tanh x = 1 - 2 / (exp (2 * x) + 1)). { intros x. unfold tanh, sinh, cosh. pose proof (exp_pos x). pose proof (exp_pos (- x)). replace (exp (2 * x)) with (exp x * exp x) by (rewrite <- exp_plus; f_equal; lra). rewrite exp_Ropp in *. field. split; nra. }
  intros e He. rewrite !T. set (a := exp (2 * 1)). set (u := exp (2 * e)). assert (U0 : 0 < u) by apply exp_pos. assert (A1 : 1 < a) by (unfold a; pose proof (exp_ineq1 (2 * 1) ltac:(lra)); lra). assert (U1 : u <> 1). { unfold u. intros E. rewrite <- exp_0 in E. apply exp_inv in E. lra. }
  replace (exp (2 * (1 + e))) with (a * u) by (unfold a, u; rewrite <- exp_plus; f_equal; lra). replace (exp (2 * (1 - e))) with (a / u) by (unfold a, u, Rdiv; rewrite <- exp_Ropp, <- exp_plus; f_equal; lra).
  replace (2 / (a / u + 1)) with (2 * u / (a + u)) by (field; repeat split; lra).
  assert (D : (1 - 2 / (a + 1)) - (1 - 2 / (a * u + 1) + (1 - 2 * u / (a + u))) / 2 = a * (a - 1) * (u - 1) * (u - 1) / ((a + 1) * (a * u + 1) * (a + u))) by (field; repeat split; nra).
  assert (P : 0 < a * (a - 1) * (u - 1) * (u - 1) / ((a + 1) * (a * u + 1) * (a + u))); [|lra]. apply Rmult_lt_0_compat.
  - replace (a * (a - 1) * (u - 1) * (u - 1)) with (a * (a - 1) * ((u - 1) * (u - 1))) by ring. apply Rmult_lt_0_compat; [nra|]. apply Rsqr_pos_lt. lra.
  - apply Rinv_0_lt_compat. assert (0 < a * u) by nra. apply Rmult_lt_0_compat; [apply Rmult_lt_0_compat; lra|lra].
Qed.
Theorem C41_mean_refuted : exists S p, sd_lo S = [-1] /\ sd_hi S = [1] /\ sd_clip S = Some (-20, 20) /\ forall e, e <> 0 ->
  exists x y m, s_sample S p [e] = Ok [x] /\ s_sample S p [- e] = Ok [y] /\ s_mean S p = Ok [m] /\ (x + y) / 2 < m.
Proof.
  exists (mkSD [-1] [1] (Some (-20, 20))), (mkN [1] [0]). do 3 (split; [reflexivity|]). intros e He. exists (tanh (1 + e)), (tanh (1 - e)), (tanh 1).
  assert (C0 : clip 0 (-20) 20 = 0) by (apply clip_in; lra). assert (SM : forall d, s_sample (mkSD [-1] [1] (Some (-20, 20))) (mkN [1] [0]) [d] = Ok [tanh (1 + d)]).
  { intros d. unfold s_sample, sd_normal, n_sample, check_logvar, squash, sd_scale, sd_offset. cbn. rewrite C0. replace (0 / 2) with 0 by lra. rewrite exp_0. do 2 f_equal. rewrite Rmult_1_l. lra. }
  split; [apply SM|]. split; [rewrite SM; reflexivity|]. split; [|now apply tanh_pair]. unfold s_mean, squash, sd_scale, sd_offset. cbn. do 2 f_equal. lra.
Qed.
Print Assumptions C41_mean_refuted.
Example C41_example : -1 + / 10000000 <= 1 / 2 <= 1 - / 10000000 /\ inverse_of_tanh arctanh.
Proof. split; [lra|]. exact (fun y H => tanh_arctanh H). Qed.

(** C42: the mass on atom k is the sum of the source probabilities times the hat function of the distance of their clipped images. *)
Theorem C42_shares : forall n lo hi f finv scale shift p k, (2 <= n)%nat -> lo < hi -> length p = n -> (k < n)%nat ->
  nth k (di_masses n lo hi f finv scale shift p) 0 =
  total (map (fun j => nth j p 0 * hat ((Rmin (Rmax (f (scale * finv (atom n lo hi j) + shift)) (atom n lo hi 0)) (atom n lo hi (n - 1)) - atom n lo hi k) / ((hi - lo) / INR n))) (seq 0 n)).
Proof. intros. now apply masses_hat. Qed.
Print Assumptions C42_shares.
(** C42: mass, sign and mean. *)
Theorem C42_mass_and_mean : forall n lo hi f finv scale shift p, (2 <= n)%nat -> lo < hi -> length p = n -> distribution p ->
  let m := di_masses n lo hi f finv scale shift p in
  length m = n /\ distribution m /\ expect m (atom n lo hi) = expect p (fun j => Rmin (Rmax (f (scale * finv (atom n lo hi j) + shift)) (atom n lo hi 0)) (atom n lo hi (n - 1))).
Proof.
  intros n lo hi f finv scale shift p Hn Hlh Hp [P T] m. split; [now apply (@masses_expect n lo hi f finv scale shift p Hn Hlh Hp (fun _ => 0))|]. split; [split|].
  - now apply masses_nonneg.
  - unfold m. now rewrite masses_total.
  - now apply masses_mean.
Qed.
Print Assumptions C42_mass_and_mean.
(** C42: the probabilities of the returned logits are these masses up to the 1e-16 inside the logarithm. *)
Theorem C42_affine_transform : forall n lo hi f finv scale shift z, (2 <= n)%nat -> lo < hi -> length z = n ->
  exists p z' p', cat_mean n z = Ok p /\ di_affine n lo hi f finv scale shift z = Ok z' /\ cat_mean n z' = Ok p' /\ pos_distribution p' /\
    forall k, (k < n)%nat -> let m := nth k (di_masses n lo hi f finv scale shift p) 0 in m / (1 + INR n * / 10 ^ 16) <= nth k p' 0 <= m + / 10 ^ 16.
Proof.
  intros n lo hi f finv scale shift z Hn Hlh Hz. assert (E16 : / 10 ^ 16 = eps16) by (unfold eps16; f_equal; lra). rewrite E16. assert (NE : z <> []) by (apply (@nonempty n); auto; lia). assert (PD : pos_distribution (softmax z)) by now apply softmax_dist.
  assert (LP : length (softmax z) = n) by now rewrite softmax_length. assert (DP : distribution (softmax z)) by (split; [intros x Hx; left; now apply PD|apply PD]).
  destruct (C42_mass_and_mean n lo hi f finv scale shift (softmax z) Hn Hlh LP DP) as [LM [DM _]].
  exists (softmax z). eexists. eexists. unfold cat_mean, di_affine. rewrite (check_ok _ Hz), Hz, Nat.eqb_refl. split; [reflexivity|]. split; [reflexivity|].
  rewrite check_ok by (rewrite map_length; auto). split; [reflexivity|]. set (m := di_masses n lo hi f finv scale shift (softmax z)) in *.
  assert (NM : m <> []) by (apply (@nonempty n); auto; lia). split; [apply softmax_dist; intros C; apply map_eq_nil in C; congruence|]. intros k Hk. rewrite <- LM at 1. apply softmax_log_max; auto. lia.
Qed.
Print Assumptions C42_affine_transform.
Theorem C42_rejects : forall n lo hi f finv scale shift z, length z <> n -> di_affine n lo hi f finv scale shift z = Err EAssertion.
Proof. intros n lo hi f finv scale shift z H. unfold di_affine. apply Nat.eqb_neq in H. now rewrite H. Qed.
Print Assumptions C42_rejects.
Example C42_rejects_ex : length [1; 2] <> 3%nat. Proof. discriminate. Qed.
Example C42_example : distribution [1/2; 1/2; 0] /\ length [1/2; 1/2; 0] = 3%nat /\ hat (1/4) = 3/4.
Proof. split; [split; [intros x [<-|[<-|[<-|[]]]]; lra|cbn; lra]|]. split; auto. unfold hat. rewrite Rabs_right by lra. rewrite Rmax_right by lra. lra. Qed.

(** C63: EmpiricalQuantileDist.affine_transform. *)
Theorem C63_mean : forall scale shift vs, vs <> [] -> eq_mean (eq_affine (fun x => x) (fun x => x) scale shift vs) = scale * mean vs + shift.
Proof. exact eq_mean_affine. Qed.
Print Assumptions C63_mean.
(** The values belong to increasing quantile fractions, so they have to be sorted; for scale >= 0 they stay so. *)
Theorem C63_sorted_partial : forall f finv scale shift vs, (forall x y, x <= y -> f x <= f y) -> (forall x y, x <= y -> finv x <= finv y) -> 0 <= scale ->
  nondecreasing vs -> nondecreasing (eq_affine f finv scale shift vs).
Proof. exact eq_sorted. Qed.
Print Assumptions C63_sorted_partial.
Theorem C63_sorted_refuted : exists scale shift vs, nondecreasing vs /\ ~ nondecreasing (eq_affine (fun x => x) (fun x => x) scale shift vs).
Proof.
  exists (-1), 0, [0; 1]. split.
  - intros i j Hij. cbn in Hij. assert (i = 0%nat) by lia. assert (j = 1%nat) by lia. subst. cbn. lra.
  - intros N. specialize (N 0%nat 1%nat ltac:(cbn; lia)). cbn in N. lra.
Qed.
Print Assumptions C63_sorted_refuted.
Example C63_example : eq_mean (eq_affine (fun x => x) (fun x => x) 2 1 [1; 3]) = 5.
Proof. rewrite eq_mean_affine by discriminate. unfold mean. cbn. lra. Qed.

(** C64: an integer in [low, high) is mapped to the one-hot vector of a bin and back to an atom at most half a bin away. *)
Theorem C64_integers_partial : forall n lo hi x, (1 <= n)%nat -> lo <= IZR x < hi ->
  exists k, (k < n)%nat /\ di_pre n lo hi (VInt x) = Ok (one_hot n k) /\ di_post n lo hi (one_hot n k) = Ok (atom n lo hi k) /\ Rabs (atom n lo hi k - IZR x) <= (hi - lo) / (2 * INR n).
Proof. exact di_pre_in. Qed.
Print Assumptions C64_integers_partial.
(** C64 is false for the elements of the Box, which are floats: they are rejected. *)
Theorem C64_floats_refuted : forall n lo hi x, di_pre n lo hi (VFloat x) = Err EAssertion.
Proof. reflexivity. Qed.
Print Assumptions C64_floats_refuted.
(** C64 is false at the upper end: the vector is all zeros and comes back as 0. *)
Theorem C64_high_refuted : exists n lo hi x v, (1 <= n)%nat /\ lo <= IZR x <= hi /\ di_pre n lo hi (VInt x) = Ok v /\ di_post n lo hi v = Ok 0 /\ Rabs (0 - IZR x) > (hi - lo) / (2 * INR n).
Proof.
  exists 4%nat, 10, 12, 12%Z, (repeat 0 4). destruct (@di_pre_high 4 10 12 12%Z) as [A B]; auto; [lra|]. split; [auto|]. split; [lra|]. split; auto. split; auto. rewrite Rabs_left by lra. cbn. lra.
Qed.
Print Assumptions C64_high_refuted.
Example C64_example : 10 <= IZR 11 < 12. Proof. lra. Qed.
