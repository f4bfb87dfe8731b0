(** Change of variables in integrals; densities of continuous actions. *)
From Coq Require Import List ZArith Lia Bool Reals Lra.
From Verif Require Import PyCommon CommonProofs UtilsModel WrappersModel WrappersProofs DistModel DistSpec DistProofs DistProofs2 MeanSpec MeanProofs CompModel CompSpec CompSpec2 CompProofs CompProofs2 CompProofs3 CompProofs4 CompProofs5 CompProofs7 CompProofs8 DensModel DensSpec.
Import ListNotations.
Set Implicit Arguments.
Local Open Scope R_scope.

(** The fundamental theorem on an interval. *)
Lemma integral_prim : forall f a b, a <= b -> (forall x, a <= x <= b -> continuity_pt f x) ->
  exists P, (forall x, a <= x <= b -> derivable_pt_lim P x (f x)) /\ integral f a b (P b - P a).
Proof.
  intros f a b h C. exists (primitive h (FTC_P1 h C)). split; [intros x Hx; now apply RiemannInt_P28|].
  pose proof (@RiemannInt_P20 f a b h (FTC_P1 h C) (continuity_implies_RiemannInt h C)) as E. exists (continuity_implies_RiemannInt h C). exact E.
Qed.
Lemma derivable_cont : forall F x l, derivable_pt_lim F x l -> continuity_pt F x.
Proof. intros F x l H. apply derivable_continuous_pt. exists l. exact H. Qed.
Lemma same_derivative : forall F G f a b, a <= b -> (forall x, a <= x <= b -> derivable_pt_lim F x (f x)) -> (forall x, a <= x <= b -> derivable_pt_lim G x (f x)) -> F b - F a = G b - G a.
Proof.
  intros F G f a b h HF HG. assert (D : forall x, a <= x <= b -> derivable_pt_lim (minus_fct F G) x (f x - f x)) by (intros x Hx; apply derivable_pt_lim_minus; auto).
  assert (pr : forall x, a < x < b -> derivable_pt (minus_fct F G) x) by (intros x Hx; exists (f x - f x); apply D; lra).
  assert (K : constant_D_eq (minus_fct F G) (fun x => a <= x <= b) (minus_fct F G a)).
  { apply (@null_derivative_loc (minus_fct F G) a b pr); [intros x Hx; eapply derivable_cont; apply D; auto|]. intros x P. apply derive_pt_eq_0. specialize (D x ltac:(lra)). now rewrite Rminus_diag_eq in D by reflexivity. }
  pose proof (K b ltac:(lra)) as E. unfold minus_fct in E. lra.
Qed.
Lemma integral_ftc_loc : forall F f a b, a <= b -> (forall x, a <= x <= b -> derivable_pt_lim F x (f x)) -> (forall x, a <= x <= b -> continuity_pt f x) -> integral f a b (F b - F a).
Proof. intros F f a b h D C. destruct (integral_prim h C) as (P & DP & I). now rewrite (@same_derivative F P f a b h D DP). Qed.

Lemma substitution : forall f g g' c d, c <= d -> g c <= g d -> (forall x, c <= x <= d -> derivable_pt_lim g x (g' x)) -> (forall x, c <= x <= d -> continuity_pt g' x) ->
  (forall x, c <= x <= d -> g c <= g x <= g d) -> (forall y, g c <= y <= g d -> continuity_pt f y) ->
  exists m, integral f (g c) (g d) m /\ integral (fun x => f (g x) * g' x) c d m.
Proof.
  intros f g g' c d L Lg D C M Cf. destruct (integral_prim Lg Cf) as (P & DP & I). exists (P (g d) - P (g c)). split; auto.
  apply (@integral_ftc_loc (comp P g)); auto.
  - intros x Hx. apply derivable_pt_lim_comp; auto.
  - intros x Hx. apply continuity_pt_mult; auto. apply (continuity_pt_comp g f); auto. eapply derivable_cont; eauto.
Qed.

(** * One coordinate *)
Definition raw (k : axis) (x : R) : R := ln ((x - low k) / (high k - x)).
Definition sd (k : axis) : R := exp (lv_used (a_lv k) / 2).
Definition point (k : axis) (e : R) : R := n_post (low k) (high k) (-30) 30 (a_mu k + sd k * e).
Definition draw_for (k : axis) (x : R) : R := (raw k x - a_mu k) / sd k.

Lemma sd_pos : forall k, 0 < sd k. Proof. intros k. apply exp_pos. Qed.
Lemma sd_sq : forall k, exp (lv_used (a_lv k)) = sd k * sd k.
Proof. intros k. unfold sd. rewrite <- exp_plus. f_equal. lra. Qed.
Lemma sigmoid_le_iff : forall x y, sigmoid x <= sigmoid y <-> x <= y.
Proof. intros x y. split; [|apply sigmoid_le]. intros H. destruct (Rle_dec x y) as [L|L]; auto. apply Rnot_le_lt in L. pose proof (@sigmoid_incr y x L). lra. Qed.
Lemma sig_lo : sigmoid (-30) = / (1 + exp 30).
Proof. unfold sigmoid. do 3 f_equal. lra. Qed.
Lemma sig_hi : sigmoid 30 = 1 - / (1 + exp 30).
Proof. rewrite <- sig_lo. assert (E : sigmoid (- (-30)) = 1 - sigmoid (-30)) by apply sigmoid_opp. rewrite <- E. f_equal. lra. Qed.
Section Axis.
Variable k : axis.
Hypothesis LH : low k < high k.
Lemma sigmoid_raw : forall x, low k < x < high k -> sigmoid (raw k x) = (x - low k) / (high k - low k).
Proof.
  intros x Hx. unfold raw, sigmoid. rewrite exp_Ropp, exp_ln by (apply Rdiv_lt_0_compat; lra). rewrite Rinv_div by idtac. field. lra.
Qed.
Lemma raw_bounds : forall x, low k + margin k <= x <= high k - margin k -> -30 <= raw k x <= 30.
Proof.
  intros x Hx. unfold margin in Hx. pose proof (exp_pos 30) as P. assert (M : 0 < (high k - low k) / (1 + exp 30)) by (apply Rdiv_lt_0_compat; lra).
  assert (Hx' : low k < x < high k) by lra. split; apply sigmoid_le_iff; rewrite sigmoid_raw by auto.
  - rewrite sig_lo. apply Rmult_le_reg_r with (high k - low k); [lra|]. unfold Rdiv in *. rewrite Rmult_assoc, Rinv_l by lra. lra.
  - rewrite sig_hi. apply Rmult_le_reg_r with (high k - low k); [lra|]. unfold Rdiv in *. rewrite Rmult_assoc, Rinv_l by lra. lra.
Qed.
Lemma raw_inside : forall x, low k + margin k < x < high k - margin k -> -30 < raw k x < 30.
Proof.
  intros x Hx. unfold margin in Hx. pose proof (exp_pos 30) as P. assert (M : 0 < (high k - low k) / (1 + exp 30)) by (apply Rdiv_lt_0_compat; lra).
  assert (Hx' : low k < x < high k) by lra. split; apply Rnot_le_lt; intros C; apply sigmoid_le_iff in C; rewrite sigmoid_raw in C by auto.
  - rewrite sig_lo in C. apply Rmult_le_compat_r with (r := high k - low k) in C; [|lra]. unfold Rdiv in *. rewrite Rmult_assoc, Rinv_l in C by lra. lra.
  - rewrite sig_hi in C. apply Rmult_le_compat_r with (r := high k - low k) in C; [|lra]. unfold Rdiv in *. rewrite Rmult_assoc, Rinv_l in C by lra. lra.
Qed.
Lemma margin_pos : 0 < margin k.
Proof. unfold margin. pose proof (exp_pos 30). apply Rdiv_lt_0_compat; lra. Qed.
Lemma point_raw : forall x, low k < x < high k -> x = low k + (high k - low k) * sigmoid (raw k x).
Proof. intros x Hx. rewrite sigmoid_raw by auto. field. lra. Qed.
Lemma post_le : forall y x, low k + margin k < x < high k - margin k -> (n_post (low k) (high k) (-30) 30 y <= x <-> y <= raw k x).
Proof.
  intros y x Hx. pose proof (raw_inside Hx) as B. pose proof margin_pos. assert (Hx' : low k < x < high k) by lra. unfold n_post. rewrite (point_raw Hx') at 1. transitivity (sigmoid (clip y (-30) 30) <= sigmoid (raw k x)); [split; nra|]. rewrite sigmoid_le_iff.
  unfold clip, Rmin, Rmax. repeat destruct (Rle_dec _ _); lra.
Qed.
Lemma post_ge : forall y x, low k + margin k < x < high k - margin k -> (x <= n_post (low k) (high k) (-30) 30 y <-> raw k x <= y).
Proof.
  intros y x Hx. pose proof (raw_inside Hx) as B. pose proof margin_pos. assert (Hx' : low k < x < high k) by lra. unfold n_post. rewrite (point_raw Hx') at 1. transitivity (sigmoid (raw k x) <= sigmoid (clip y (-30) 30)); [split; nra|]. rewrite sigmoid_le_iff.
  unfold clip, Rmin, Rmax. repeat destruct (Rle_dec _ _); lra.
Qed.
Lemma point_within : forall c d e, low k + margin k < c -> c <= d -> d < high k - margin k -> (within (point k e) (c, d) <-> within e (draw_for k c, draw_for k d)).
Proof.
  intros c d e H1 H2 H3. unfold within, point. cbn [fst snd]. rewrite post_le, post_ge by lra. unfold draw_for. pose proof (sd_pos k) as S.
  assert (forall y, (y - a_mu k) / sd k * sd k = y - a_mu k) as E by (intros y; field; lra). pose proof (E (raw k c)). pose proof (E (raw k d)). split; intros [A B]; split; nra.
Qed.
Lemma raw_deriv : forall x, low k < x < high k -> derivable_pt_lim (raw k) x (stretch k x).
Proof.
  intros x Hx. unfold stretch. set (g := fun x => (x - low k) / (high k - x)). assert (Dg : derivable_pt_lim g x (((1 - 0) * (high k - x) - (0 - 1) * (x - low k)) / Rsqr (high k - x))).
  { apply (derivable_pt_lim_div (fun x => x - low k) (fun x => high k - x)); [| |lra].
    - apply (derivable_pt_lim_minus id (fct_cte (low k))); [apply derivable_pt_lim_id|apply derivable_pt_lim_const].
    - apply (derivable_pt_lim_minus (fct_cte (high k)) id); [apply derivable_pt_lim_const|apply derivable_pt_lim_id]. }
  assert (G : 0 < g x) by (unfold g; apply Rdiv_lt_0_compat; lra). pose proof (derivable_pt_lim_comp g ln x _ _ Dg (derivable_pt_lim_ln (g x) G)) as D.
  replace ((high k - low k) / ((x - low k) * (high k - x))) with (/ g x * (((1 - 0) * (high k - x) - (0 - 1) * (x - low k)) / Rsqr (high k - x))); [exact D|]. unfold g, Rsqr. field. lra.
Qed.
Lemma draw_deriv : forall x, low k < x < high k -> derivable_pt_lim (draw_for k) x (stretch k x / sd k).
Proof.
  intros x Hx. pose proof (sd_pos k) as S. pose proof (raw_deriv Hx) as D.
  pose proof (derivable_pt_lim_mult (minus_fct (raw k) (fct_cte (a_mu k))) (fct_cte (/ sd k)) x _ _ (derivable_pt_lim_minus _ _ _ _ _ D (derivable_pt_lim_const (a_mu k) x)) (derivable_pt_lim_const (/ sd k) x)) as E.
  unfold mult_fct, minus_fct, fct_cte in E. replace (stretch k x / sd k) with ((stretch k x - 0) * / sd k + (raw k x - a_mu k) * 0) by (unfold Rdiv; ring). exact E.
Qed.
Lemma bell_cont : continuity bell.
Proof.
  intros x. unfold bell. apply (continuity_pt_mult (fun e => exp (- (e * e / 2))) (fct_cte (/ sqrt (2 * PI)))); [|apply continuity_pt_const; intros ? ?; reflexivity].
  apply (continuity_pt_comp (fun e => - (e * e / 2)) exp); [|apply derivable_continuous_pt, derivable_pt_exp]. apply derivable_continuous_pt. reg.
Qed.
Lemma density_bell : forall x, bell (draw_for k x) * (stretch k x / sd k) = action_density k x.
Proof.
  intros x. unfold action_density, gauss, bell. fold (raw k x). rewrite sd_sq. pose proof (sd_pos k) as S. pose proof PI_RGT_0. rewrite (sqrt_mult (2 * PI) (sd k * sd k)) by nra. rewrite sqrt_square by lra. assert (0 < sqrt (2 * PI)) by (apply sqrt_lt_R0; lra).
  replace (draw_for k x * draw_for k x / 2) with ((raw k x - a_mu k) * (raw k x - a_mu k) / (2 * (sd k * sd k))) by (unfold draw_for; field; lra). field. lra.
Qed.
Lemma stretch_cont : forall x, low k < x < high k -> continuity_pt (stretch k) x.
Proof.
  intros x Hx. unfold stretch. apply (continuity_pt_div (fct_cte (high k - low k)) (fun x => (x - low k) * (high k - x))); [apply continuity_pt_const; intros ? ?; reflexivity| |nra]. apply derivable_continuous_pt. reg.
Qed.
Lemma axis_prob : forall c d, low k + margin k < c -> c <= d -> d < high k - margin k -> exists q, integral bell (draw_for k c) (draw_for k d) q /\ integral (action_density k) c d q.
Proof.
  intros c d H1 H2 H3. pose proof margin_pos as MP. assert (RM : forall x y, low k < x -> x <= y -> y < high k -> draw_for k x <= draw_for k y).
  { intros x y Hx Hxy Hy. unfold draw_for. pose proof (sd_pos k). apply Rmult_le_compat_r; [apply Rlt_le, Rinv_0_lt_compat; lra|]. assert (raw k x <= raw k y); [|lra]. apply sigmoid_le_iff. rewrite !sigmoid_raw by lra. apply Rmult_le_compat_r; [apply Rlt_le, Rinv_0_lt_compat; lra|lra]. }
  destruct (@substitution bell (draw_for k) (fun x => stretch k x / sd k) c d H2) as (m & I1 & I2).
  - apply RM; lra.
  - intros x Hx. apply draw_deriv. lra.
  - intros x Hx. apply (continuity_pt_mult (stretch k) (fct_cte (/ sd k))); [apply stretch_cont; lra|apply continuity_pt_const; intros ? ?; reflexivity].
  - intros x Hx. split; apply RM; lra.
  - intros y _. apply bell_cont.
  - exists m. split; auto. apply (@integral_ext _ (action_density k) c d m H2 (fun x _ => density_bell x) I2).
Qed.
End Axis.

(** * Boxes *)
Lemma Forall2_map_l : forall A B C (f : A -> B) (P : B -> C -> Prop) l l', Forall2 P (map f l) l' -> Forall2 (fun a c => P (f a) c) l l'.
Proof. induction l as [|a l IH]; intros l' H; inversion H; subst; constructor; auto. Qed.
Lemma box_made : forall ks d, mk (box_of ks) = Ok d -> d = PNorm (map (fun k => (low k, high k)) ks) /\ forall k, In k ks -> low k < high k.
Proof.
  intros ks d E. unfold box_of in E. cbn [mk] in E. destruct (map_outcome _ (map a_bounds ks)) as [bd|] eqn:E1; [|discriminate]. injection E as <-. apply map_outcome_ok in E1. apply Forall2_map_l in E1.
  assert (H : bd = map (fun k => (low k, high k)) ks /\ forall k, In k ks -> low k < high k).
  { induction E1 as [|k [l h] ks bd H F IH]; [split; [reflexivity|intros ? []]|]. destruct IH as [-> IH]. destruct (n_bounds_val (a_bounds k) H) as (-> & -> & B). split; [reflexivity|]. intros k' [<-|I]; auto. }
  destruct H as [-> H]. auto.
Qed.
Definition raws (ks : list axis) (us : list R) : list R := map (fun ke => a_mu (fst ke) + sd (fst ke) * snd ke) (combine ks us).
Definition points (ks : list axis) (us : list R) : list R := map (fun ke => point (fst ke) (snd ke)) (combine ks us).
Lemma raws_len : forall ks us, length us = length ks -> length (raws ks us) = length ks.
Proof. intros ks us L. unfold raws. rewrite map_length, combine_length. lia. Qed.
Lemma box_sample : forall ks d us, mk (box_of ks) = Ok d -> length us = length ks -> c_sample d (params_of ks) us = Ok (VArr (raws ks us), []).
Proof.
  intros ks d us HM L. unfold box_of in HM. destruct (@draw_box _ _ HM (params_of ks) us [] [] []) as (X & Y & x & r & E & D & _).
  - exists (map a_mu ks), (map a_lv ks). rewrite !map_length. auto.
  - cbn [drawn]. now rewrite map_length.
  - reflexivity.
  - intros g [].
  - rewrite app_nil_r in E. rewrite E. f_equal. f_equal. inversion D; subst. f_equal. unfold raws. clear - L. revert us L. induction ks as [|k ks IH]; intros [|u us] L; cbn in L; try lia; [reflexivity|]. cbn [map combine fst snd]. f_equal. apply IH. lia.
Qed.
Lemma box_post : forall ks d us gs, mk (box_of ks) = Ok d -> length us = length ks -> c_post d (VArr (raws ks us)) gs = Ok (CVec (points ks us), gs).
Proof.
  intros ks d us gs HM L. apply box_made in HM. destruct HM as [-> _]. cbn [c_post]. rewrite map_length, (@raws_len ks us L), Nat.eqb_refl. do 3 f_equal. unfold raws, points. revert us L. induction ks as [|k ks IH]; intros [|u us] L; cbn in L; try lia; [reflexivity|]. cbn [map combine fst snd]. f_equal. apply IH. lia.
Qed.
Lemma box_draw : forall ks d us, mk (box_of ks) = Ok d -> length us = length ks -> c_draw d (params_of ks) us [] = Ok (CVec (points ks us)).
Proof. intros ks d us HM L. unfold c_draw. rewrite (@box_sample ks d us HM L). cbn [bind fst]. rewrite (@box_post ks d us [] HM L). reflexivity. Qed.

Definition inner (k : axis) (r : R * R) : Prop := low k + margin k < fst r /\ fst r <= snd r /\ snd r < high k - margin k.
Lemma rect_iff : forall ks ranges, (forall k, In k ks -> low k < high k) -> Forall2 inner ks ranges -> forall us, length us = length ks ->
  (Forall2 within (points ks us) ranges <-> Forall2 within us (map (fun kr => (draw_for (fst kr) (fst (snd kr)), draw_for (fst kr) (snd (snd kr)))) (combine ks ranges))).
Proof.
  intros ks ranges H F. induction F as [|k [c d] ks ranges (H1 & H2 & H3) F IH]; intros [|u us] L; cbn in L; try lia; [split; intros; constructor|]. cbn [points combine map fst snd] in *. fold (points ks us).
  assert (LH : low k < high k) by (apply H; now left). assert (IH' := IH (fun k' I => H k' (or_intror I)) us ltac:(lia)). pose proof (@point_within k LH c d u H1 H2 H3) as PW.
  split; intros X; inversion X; subst; constructor; tauto.
Qed.
Lemma rect_prob : forall ks ranges, (forall k, In k ks -> low k < high k) -> Forall2 inner ks ranges -> exists qs,
  Forall2 (fun r q => integral bell (fst r) (snd r) q) (map (fun kr => (draw_for (fst kr) (fst (snd kr)), draw_for (fst kr) (snd (snd kr)))) (combine ks ranges)) qs /\
  Forall2 (fun kr q => integral (action_density (fst kr)) (fst (snd kr)) (snd (snd kr)) q) (combine ks ranges) qs.
Proof.
  intros ks ranges H F. induction F as [|k [c d] ks ranges (H1 & H2 & H3) F IH]; [exists []; split; constructor|]. destruct IH as (qs & I1 & I2); [intros; apply H; now right|]. destruct (@axis_prob k (H k (or_introl eq_refl)) c d H1 H2 H3) as (q & J1 & J2). exists (q :: qs). split; constructor; auto.
Qed.

(** Log-probabilities. *)
Definition gausses (ks : list axis) (ys : list R) : list R := map (fun ky => gauss (a_mu (fst ky)) (exp (lv_used (a_lv (fst ky)))) (snd ky)) (combine ks ys).
Lemma box_logp : forall ks d ys, mk (box_of ks) = Ok d -> length ys = length ks -> c_log_proba d (params_of ks) (VArr ys) = Ok (ln (prod (gausses ks ys))).
Proof.
  intros ks d ys HM L. apply box_made in HM. destruct HM as [-> _]. cbn [c_log_proba as_array bind params_of np_at array_at item lookup mu_key logvar_key Nat.eqb].
  rewrite n_log_proba_spec; [|split; cbn; rewrite !map_length; reflexivity|cbn; now rewrite map_length]. do 2 f_equal. cbn [n_mu n_logvar]. unfold clipped, gausses, nd_of. cbn [nd_clo nd_chi]. revert ys L. induction ks as [|k ks IH]; intros [|y ys] L; cbn in L; try lia; [reflexivity|]. cbn [map joint combine fst snd prod fold_right DistSpec.product]. f_equal. apply IH. lia.
Qed.
Lemma gauss_pos : forall m v x, 0 < v -> 0 < gauss m v x.
Proof. intros m v x V. unfold gauss. apply Rdiv_lt_0_compat; [apply exp_pos|]. apply sqrt_lt_R0. pose proof PI_RGT_0. nra. Qed.
Lemma stretch_pos : forall k x, low k < x < high k -> 0 < stretch k x.
Proof. intros k x H. unfold stretch. apply Rdiv_lt_0_compat; nra. Qed.
Lemma prod_pos : forall l, (forall x, In x l -> 0 < x) -> 0 < prod l.
Proof. induction l as [|x l IH]; intros H; cbn; [lra|]. apply Rmult_lt_0_compat; [apply H; now left|]. apply IH. intros; apply H; now right. Qed.
Lemma box_pre : forall ks d xs, mk (box_of ks) = Ok d -> Forall2 (fun k x => low k + margin k <= x <= high k - margin k) ks xs -> c_pre d (CVec xs) = Ok (VArr (map (fun kx => raw (fst kx) (snd kx)) (combine ks xs))).
Proof.
  intros ks d xs HM F. apply box_made in HM. destruct HM as [-> H]. cbn [c_pre]. rewrite map_length, (Forall2_len F), Nat.eqb_refl. do 2 f_equal. induction F as [|k x ks xs B F IH]; [reflexivity|]. cbn [map combine fst snd].
  assert (LH : low k < high k) by (apply H; now left). pose proof (@margin_pos k LH) as MP. f_equal; [|apply IH; intros; apply H; now right].
  rewrite (@point_raw k LH x ltac:(lra)) at 1. pose proof (@raw_bounds k LH x B) as RB. rewrite <- (@clip_in (raw k x) (-30) 30 RB) at 1. fold (n_post (low k) (high k) (-30) 30 (raw k x)). rewrite n_pre_post by auto. now rewrite clip_in.
Qed.
Lemma dens_prod : forall ks xs, prod (densities ks xs) = prod (gausses ks (map (fun kx => raw (fst kx) (snd kx)) (combine ks xs))) * prod (stretches ks xs).
Proof. induction ks as [|k ks IH]; intros [|x xs]; try (cbn; ring). unfold densities, stretches, gausses in *. cbn [combine map prod fold_right fst snd] in *. fold (prod (map (fun kx => action_density (fst kx) (snd kx)) (combine ks xs))). rewrite IH. unfold prod, action_density at 1. fold (raw k x). ring. Qed.
Lemma box_pre_points : forall ks d us, mk (box_of ks) = Ok d -> length us = length ks -> c_pre d (CVec (points ks us)) = Ok (VArr (map (fun y => clip y (-30) 30) (raws ks us))).
Proof.
  intros ks d us HM L. apply box_made in HM. destruct HM as [-> H]. cbn [c_pre]. unfold points. rewrite !map_length, combine_length, L, Nat.min_id, Nat.eqb_refl. do 2 f_equal. unfold raws. revert us L. induction ks as [|k ks IH]; intros [|u us] L; cbn in L; try lia; [reflexivity|]. cbn [map combine fst snd].
  f_equal; [|apply IH; [intros; apply H; now right|lia]]. unfold point. apply n_pre_post. apply H. now left.
Qed.
Definition logs (ks : list axis) (us : list R) : list R := map (fun ku => ln (bell (snd ku)) - lv_used (a_lv (fst ku)) / 2) (combine ks us).
Lemma bell_pos : forall e, 0 < bell e.
Proof. intros e. unfold bell. apply Rdiv_lt_0_compat; [apply exp_pos|]. apply sqrt_lt_R0. pose proof PI_RGT_0. lra. Qed.
Lemma gauss_bell : forall k u, gauss (a_mu k) (exp (lv_used (a_lv k))) (a_mu k + sd k * u) = bell u / sd k.
Proof.
  intros k u. unfold gauss, bell. rewrite sd_sq. pose proof (sd_pos k) as S. pose proof PI_RGT_0. rewrite (sqrt_mult (2 * PI) (sd k * sd k)) by nra. rewrite sqrt_square by lra. assert (0 < sqrt (2 * PI)) by (apply sqrt_lt_R0; lra).
  replace ((a_mu k + sd k * u - a_mu k) * (a_mu k + sd k * u - a_mu k) / (2 * (sd k * sd k))) with (u * u / 2) by (field; lra). field. lra.
Qed.
Lemma gausses_pos : forall ks ys, 0 < prod (gausses ks ys).
Proof. intros ks ys. apply prod_pos. intros x Hx. unfold gausses in Hx. apply in_map_iff in Hx. destruct Hx as ([k y] & <- & _). apply gauss_pos, exp_pos. Qed.
Lemma gausses_logs : forall ks us, length us = length ks -> ln (prod (gausses ks (raws ks us))) = fold_right Rplus 0 (logs ks us).
Proof.
  induction ks as [|k ks IH]; intros [|u us] L; cbn in L; try lia; [cbn; apply ln_1|]. unfold raws, logs, gausses in *. cbn [combine map prod fold_right fst snd]. fold (prod (map (fun ky => gauss (a_mu (fst ky)) (exp (lv_used (a_lv (fst ky)))) (snd ky)) (combine ks (map (fun ke => a_mu (fst ke) + sd (fst ke) * snd ke) (combine ks us))))).
  rewrite ln_mult; [|apply gauss_pos, exp_pos|apply (gausses_pos ks)]. rewrite IH by lia. f_equal. rewrite gauss_bell. unfold Rdiv. rewrite ln_mult; [|apply bell_pos|apply Rinv_0_lt_compat, sd_pos]. rewrite ln_Rinv by apply sd_pos. unfold sd. rewrite ln_exp. lra.
Qed.
