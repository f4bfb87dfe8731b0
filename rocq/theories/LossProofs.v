From Coq Require Import List Lia Bool Reals Lra.
From Verif Require Import PyCommon CommonProofs UtilsModel UtilsSpec UtilsProofs2 UtilsProofs3 WrappersModel WrappersProofs DistModel DistSpec DistProofs DistProofs2 LossModel LossSpec.
Import ListNotations.
Set Implicit Arguments.
Local Open Scope R_scope.

(** * Batches *)
Lemma concat_map_single : forall (l : list R), concat (map (fun x => [x]) l) = l.
Proof. induction l as [|x l IH]; cbn; congruence. Qed.
Lemma zip_loss_none : forall l y yhat, length y = length yhat -> y <> [] -> zip_loss l y yhat None = Ok (Some (mean (zipw l y yhat))).
Proof.
  intros l y yhat E NE. unfold zip_loss. rewrite E, Nat.eqb_refl. cbn [mean_w]. rewrite concat_map_single. unfold jmean, mean. rewrite rsum_total.
  assert (L : length (zipw l y yhat) = length y) by now apply zipw_length. destruct (zipw l y yhat); [|reflexivity]. destruct y; [congruence|discriminate].
Qed.
Lemma zip_loss_some : forall l y yhat w, length y = length yhat -> length w = length y -> y <> [] ->
  zip_loss l y yhat (Some w) = Ok (Some (weighted_mean (fun i => l (nth i y 0) (nth i yhat 0)) (fun i => nth i w 0) (length y))).
Proof.
  intros l y yhat w E Ew NE. unfold zip_loss. rewrite (proj2 (Nat.eqb_eq _ _) E). assert (L : length (zipw l y yhat) = length y) by now apply zipw_length. cbn [mean_w]. rewrite map_length, L, Ew, Nat.eqb_refl. f_equal.
  assert (C : concat (map (fun wl => map (Rmult (fst wl)) (snd wl)) (combine w (map (fun x => [x]) (zipw l y yhat)))) = map (fun i => nth i w 0 * l (nth i y 0) (nth i yhat 0)) (seq 0 (length y))).
  { clear NE L. revert yhat w E Ew. induction y as [|a y IH]; intros [|b yhat] [|c w] E Ew; cbn in E, Ew; try lia; auto. cbn [zipw map combine concat length seq nth fst snd app]. rewrite <- seq_shift, map_map. cbn [nth]. f_equal. apply IH; lia. }
  rewrite C. unfold jmean, weighted_mean. rewrite rsum_total. assert (LM : length (map (fun i => nth i w 0 * l (nth i y 0) (nth i yhat 0)) (seq 0 (length y))) = length y) by now rewrite map_length, seq_length.
  rewrite LM. destruct (map _ (seq 0 (length y))); [|reflexivity]. destruct y; [congruence|discriminate].
Qed.
Lemma zip_loss_bad : forall l y yhat w, length y = length yhat -> length w <> length y -> zip_loss l y yhat (Some w) = Err EAssertion.
Proof.
  intros l y yhat w E Ew. unfold zip_loss. rewrite E, Nat.eqb_refl. cbn [mean_w]. rewrite map_length, zipw_length by auto. destruct (Nat.eqb_spec (length y) (length w)); [congruence|auto].
Qed.

(** * Huber *)
Lemma huber_eq : forall d y h, 0 < d -> huber1 d y h = huber_formula d (h - y).
Proof.
  intros d y h Hd. unfold huber1, huber_formula. set (e := h - y). destruct (Rle_dec (Rabs e) d) as [L|L].
  - rewrite Rmin_left by auto. rewrite <- Rsqr_abs. unfold Rsqr. lra.
  - rewrite Rmin_right by lra. unfold Rsqr. lra.
Qed.
Lemma hf_cases : forall d e, 0 < d -> (- d <= e <= d /\ huber_formula d e = e * e / 2) \/ (d <= e /\ huber_formula d e = d * e - d * d / 2) \/ (e <= - d /\ huber_formula d e = - d * e - d * d / 2).
Proof.
  intros d e Hd. unfold huber_formula. destruct (Rle_dec (Rabs e) d) as [L|L].
  - left. split; auto. unfold Rabs in L. destruct (Rcase_abs e); lra.
  - unfold Rabs in *. destruct (Rcase_abs e); [right; right|right; left]; split; lra.
Qed.
(** First-order expansion with a quadratic remainder, around any point. *)
Lemma hf_smooth : forall d e t, 0 < d -> 0 <= huber_formula d (e + t) - huber_formula d e - t * clip e (- d) d <= t * t / 2.
Proof.
  intros d e t Hd.
  destruct (hf_cases e Hd) as [[A ->]|[[A ->]|[A ->]]]; destruct (hf_cases (e + t) Hd) as [[B ->]|[[B ->]|[B ->]]];
    (rewrite (@clip_in e (- d) d) by lra) || (rewrite (@clip_high e (- d) d) by lra) || (rewrite (@clip_low e (- d) d) by lra); split; nra.
Qed.
Lemma hf_deriv : forall d e, 0 < d -> derivable_pt_lim (huber_formula d) e (clip e (- d) d).
Proof.
  intros d e Hd eps He. exists (mkposreal eps He). intros t Ht Hlt. cbn in Hlt. pose proof (@hf_smooth d e t Hd) as S.
  replace ((huber_formula d (e + t) - huber_formula d e) / t - clip e (- d) d) with ((huber_formula d (e + t) - huber_formula d e - t * clip e (- d) d) / t) by (field; auto).
  set (q := huber_formula d (e + t) - huber_formula d e - t * clip e (- d) d) in *. unfold Rdiv. rewrite Rabs_mult, Rabs_inv. assert (T : 0 < Rabs t) by now apply Rabs_pos_lt.
  apply (Rmult_lt_reg_r (Rabs t)); auto. rewrite Rmult_assoc, Rinv_l, Rmult_1_r by lra. rewrite (Rabs_right q) by lra.
  assert (TT : t * t = Rabs t * Rabs t) by (rewrite <- Rabs_mult; symmetry; apply Rabs_right; nra). nra.
Qed.

(** * Logistic losses *)
Lemma logloss_in : forall y p, 0 < p < 1 -> logloss1 y p = Fin (- y * ln p - (1 - y) * ln (1 - p)).
Proof. intros y p H. unfold logloss1, elog. destruct (Rlt_dec 0 p); [|lra]. destruct (Rlt_dec 0 (1 - p)); [|lra]. reflexivity. Qed.
Lemma ln_neg : forall p, 0 < p < 1 -> ln p < 0.
Proof. intros p H. rewrite <- ln_1. apply ln_increasing; lra. Qed.
Lemma sign_agree : forall y z, y = 1 \/ y = -1 -> logloss1 ((y + 1) / 2) (sigmoid z) = Fin (logloss_sign1 y z) /\ 0 < logloss_sign1 y z.
Proof.
  intros y z Hy. pose proof (sigmoid_bounds z) as B. rewrite logloss_in by auto. unfold logloss_sign1. pose proof (exp_pos (- y * z)) as E. split.
  - f_equal. destruct Hy as [->| ->].
    + replace ((1 + 1) / 2) with 1 by lra. replace (- (1) * z) with (- z) by lra. unfold sigmoid. rewrite ln_Rinv by (pose proof (exp_pos (- z)); lra). lra.
    + replace ((-1 + 1) / 2) with 0 by lra. rewrite <- sigmoid_opp. unfold sigmoid. replace (- - z) with z by lra. replace (- (-1) * z) with z by lra. rewrite (ln_Rinv (1 + exp z)) by (pose proof (exp_pos z); lra). lra.
  - rewrite <- ln_1. apply ln_increasing; lra.
Qed.

(** * LogTransform *)
Lemma sign_pos : forall x, 0 < x -> sign x = 1. Proof. intros x H. unfold sign. destruct (Rlt_dec 0 x); [auto|lra]. Qed.
Lemma sign_neg : forall x, x < 0 -> sign x = -1. Proof. intros x H. unfold sign. destruct (Rlt_dec 0 x); [lra|]. destruct (Rlt_dec x 0); [auto|lra]. Qed.
Lemma sign_0 : sign 0 = 0. Proof. unfold sign. destruct (Rlt_dec 0 0); lra. Qed.
Lemma sign_opp : forall x, sign (- x) = - sign x.
Proof. intros x. destruct (Rtotal_order x 0) as [H|[->|H]]; [rewrite sign_pos, (sign_neg H)|rewrite Ropp_0, sign_0|rewrite sign_neg, (sign_pos H)]; lra. Qed.
Section LT.
Variable c : R.
Hypothesis Hc : 0 < c.
Let f x := sign x * c * ln (1 + Rabs x / c).
Let g x := sign x * c * (exp (Rabs x / c) - 1).
Lemma lt_f_pos : forall x, 0 < x -> f x = c * ln (1 + x / c) /\ 0 < f x.
Proof.
  intros x H. unfold f. rewrite sign_pos, Rabs_right by lra. rewrite Rmult_1_l. split; auto. apply Rmult_lt_0_compat; auto. rewrite <- ln_1. assert (0 < x / c) by (apply Rmult_lt_0_compat; auto; now apply Rinv_0_lt_compat). apply ln_increasing; lra.
Qed.
Lemma lt_g_pos : forall x, 0 < x -> g x = c * (exp (x / c) - 1) /\ 0 < g x.
Proof.
  intros x H. unfold g. rewrite sign_pos, Rabs_right by lra. rewrite Rmult_1_l. split; auto. apply Rmult_lt_0_compat; auto. assert (X : 0 < x / c) by (apply Rmult_lt_0_compat; auto; now apply Rinv_0_lt_compat). pose proof (exp_increasing _ _ X) as E. rewrite exp_0 in E. lra.
Qed.
Lemma lt_odd_f : forall x, f (- x) = - f x. Proof. intros x. unfold f. rewrite sign_opp, Rabs_Ropp. lra. Qed.
Lemma lt_odd_g : forall x, g (- x) = - g x. Proof. intros x. unfold g. rewrite sign_opp, Rabs_Ropp. lra. Qed.
Lemma lt_f_0 : f 0 = 0. Proof. unfold f. rewrite sign_0. lra. Qed.
Lemma lt_g_0 : g 0 = 0. Proof. unfold g. rewrite sign_0. lra. Qed.
Lemma lt_gf_pos : forall x, 0 < x -> g (f x) = x.
Proof.
  intros x H. destruct (lt_f_pos H) as [E P]. rewrite (proj1 (lt_g_pos P)), E. assert (0 < x / c) by (apply Rmult_lt_0_compat; auto; now apply Rinv_0_lt_compat).
  replace (c * ln (1 + x / c) / c) with (ln (1 + x / c)) by (field; lra). rewrite exp_ln by lra. field. lra.
Qed.
Lemma lt_fg_pos : forall x, 0 < x -> f (g x) = x.
Proof.
  intros x H. destruct (lt_g_pos H) as [E P]. rewrite (proj1 (lt_f_pos P)), E. replace (1 + c * (exp (x / c) - 1) / c) with (exp (x / c)) by (field; lra). rewrite ln_exp. field. lra.
Qed.
Lemma lt_inverse : inverse_pair f g.
Proof.
  split; intros x; (destruct (Rtotal_order x 0) as [H|[->|H]]; [|rewrite ?lt_f_0, ?lt_g_0, ?lt_f_0; auto|]).
  - replace x with (- - x) by lra. rewrite lt_odd_f, lt_odd_g, lt_gf_pos by lra. lra.
  - now apply lt_gf_pos.
  - replace x with (- - x) by lra. rewrite lt_odd_g, lt_odd_f, lt_fg_pos by lra. lra.
  - now apply lt_fg_pos.
Qed.
Lemma lt_incr_pos_f : forall x y, 0 <= x -> x < y -> f x < f y.
Proof.
  intros x y H0 H. destruct (lt_f_pos (x := y) ltac:(lra)) as [E P]. destruct H0 as [H0|<-]; [|rewrite lt_f_0; auto]. rewrite E, (proj1 (lt_f_pos H0)). apply Rmult_lt_compat_l; auto. assert (I : 0 < / c) by now apply Rinv_0_lt_compat.
  unfold Rdiv. apply ln_increasing; nra.
Qed.
Lemma lt_incr_f : increasing f.
Proof.
  intros x y H. destruct (Rle_or_lt 0 x); [now apply lt_incr_pos_f|]. destruct (Rle_or_lt y 0).
  - pose proof (@lt_incr_pos_f (- y) (- x) ltac:(lra) ltac:(lra)) as L. rewrite !lt_odd_f in L. lra.
  - assert (0 < f y) by (apply lt_f_pos; auto). assert (f x < 0) by (replace x with (- - x) by lra; rewrite lt_odd_f; pose proof (proj2 (lt_f_pos (x := - x) ltac:(lra))); lra). lra.
Qed.
Lemma lt_incr_g : increasing g.
Proof.
  intros x y H. destruct (Rle_or_lt (g y) (g x)) as [C|]; auto. destruct lt_inverse as [_ FG]. destruct C as [C|C].
  - apply lt_incr_f in C. rewrite !FG in C. lra.
  - apply (f_equal f) in C. rewrite !FG in C. lra.
Qed.
(** The transform compresses: |f x| <= |x|, with slope at most one. *)
Lemma lt_compress_pos : forall x y, 0 <= x -> x <= y -> f y - f x <= y - x.
Proof.
  intros x y Hx Hxy. assert (I : 0 < / c) by now apply Rinv_0_lt_compat. destruct Hxy as [Hxy|<-]; [|lra]. destruct (lt_f_pos (x := y) ltac:(lra)) as [Ey _]. assert (Ex : f x = c * ln (1 + x / c)).
  { destruct Hx as [Hx|<-]; [now apply lt_f_pos|]. rewrite lt_f_0. unfold Rdiv. rewrite Rmult_0_l, Rplus_0_r, ln_1. lra. }
  assert (X : 0 <= x / c) by (unfold Rdiv; nra). assert (Y : 0 < y / c) by (unfold Rdiv; nra).
  assert (D : ln (1 + y / c) - ln (1 + x / c) <= (1 + y / c) / (1 + x / c) - 1). { rewrite <- ln_div by lra. apply ln_le_minus1. apply Rmult_lt_0_compat; [lra|apply Rinv_0_lt_compat; lra]. }
  assert (Q : (1 + y / c) / (1 + x / c) - 1 <= (y - x) / c).
  { replace ((1 + y / c) / (1 + x / c) - 1) with ((y - x) / c * / (1 + x / c)) by (field; repeat split; try lra; assert (0 <= x) by auto; nra). assert (0 < / (1 + x / c) <= 1) by (split; [apply Rinv_0_lt_compat; lra|rewrite <- Rinv_1; apply Rinv_le_contravar; lra]).
    assert (0 <= (y - x) / c) by (unfold Rdiv; apply Rmult_le_pos; lra). nra. }
  rewrite Ey, Ex. replace (y - x) with (c * ((y - x) / c)) by (field; lra). rewrite <- Rmult_minus_distr_l. apply Rmult_le_compat_l; lra.
Qed.
Lemma lt_compress : forall x y, Rabs (f y - f x) <= Rabs (y - x).
Proof.
  assert (G : forall x y, x <= y -> f y - f x <= y - x).
  { intros x y H. destruct (Rle_or_lt 0 x); [now apply lt_compress_pos|]. destruct (Rle_or_lt y 0).
    - pose proof (@lt_compress_pos (- y) (- x) ltac:(lra) ltac:(lra)) as L. rewrite !lt_odd_f in L. lra.
    - pose proof (@lt_compress_pos 0 y ltac:(lra) ltac:(lra)) as L1. pose proof (@lt_compress_pos 0 (- x) ltac:(lra) ltac:(lra)) as L2. rewrite lt_odd_f in L2. rewrite lt_f_0 in *. lra. }
  assert (M : forall x y, x <= y -> f x <= f y) by (intros x y [H|<-]; [left; now apply lt_incr_f|lra]).
  intros x y. destruct (Rle_or_lt x y) as [H|H].
  - pose proof (M _ _ H). rewrite !Rabs_right by lra. now apply G.
  - assert (H' : y <= x) by lra. pose proof (M _ _ H'). pose proof (G _ _ H'). rewrite !Rabs_left1 by lra. lra.
Qed.
End LT.

(** * Quantile Huber *)
Lemma hf_nonneg : forall d e, 0 < d -> 0 <= huber_formula d e /\ (huber_formula d e = 0 <-> e = 0).
Proof.
  intros d e Hd. destruct (hf_cases e Hd) as [[A ->]|[[A ->]|[A ->]]]; split; try nra; split; intros; nra.
Qed.
Lemma qhuber_eq : forall d tau y h, 0 < d -> 0 <= tau <= 1 -> qhuber1 d tau y h = quantile_formula d tau (y - h).
Proof.
  intros d tau y h Hd Ht. unfold qhuber1, quantile_formula, quantile_weight. assert (E : 1 / 2 * Rsqr (Rmin (Rabs (y - h)) d) + d * (Rabs (y - h) - Rmin (Rabs (y - h)) d) = huber_formula d (y - h)) by (exact (huber_eq h y Hd)).
  rewrite E. destruct (Rlt_dec (y - h) 0).
  - rewrite Rabs_left1 by lra. f_equal. f_equal. lra.
  - rewrite Rabs_right by lra. f_equal. f_equal. lra.
Qed.
Lemma hf_pos_upper : forall d e, 0 < d -> 0 <= e -> 0 <= e * clip e (- d) d - huber_formula d e <= e * e / 2 /\ 0 <= clip e (- d) d <= e.
Proof.
  intros d e Hd He. destruct (hf_cases e Hd) as [[A ->]|[[A ->]|[A ->]]].
  - rewrite (@clip_in e (- d) d) by lra. split; nra.
  - rewrite (@clip_high e (- d) d) by lra. split; nra.
  - lra.
Qed.
Lemma hf_opp : forall d e, huber_formula d (- e) = huber_formula d e.
Proof. intros d e. unfold huber_formula. rewrite Rabs_Ropp. destruct (Rle_dec (Rabs e) d); lra. Qed.
Lemma clip_opp : forall d e, 0 < d -> clip (- e) (- d) d = - clip e (- d) d.
Proof. intros d e Hd. unfold clip, Rmin, Rmax. destruct (Rle_dec (- e) (- d)), (Rle_dec e (- d)); repeat (match goal with |- context [Rle_dec ?a ?b] => destruct (Rle_dec a b) end); lra. Qed.
Lemma hf_le_sq : forall d e, 0 < d -> huber_formula d e <= e * e / 2.
Proof. intros d e Hd. destruct (hf_cases e Hd) as [[A ->]|[[A ->]|[A ->]]]; nra. Qed.
Lemma abs_between : forall a b, - b <= a <= b -> Rabs a <= b.
Proof. intros a b H. unfold Rabs. destruct (Rcase_abs a); lra. Qed.
(** Crossing zero from the right, with weight [u] on the right and [v] on the left. *)
Lemma cross : forall d u v e t, 0 < d -> 0 <= u <= 1 -> 0 <= v <= 1 -> 0 <= e -> e + t <= 0 -> Rabs (v * huber_formula d (e + t) - u * huber_formula d e - t * (u * clip e (- d) d)) <= t * t / 2.
Proof.
  intros d u v e t Hd Hu Hv He Ht. destruct (hf_pos_upper Hd He) as [[A1 A2] [B1 B2]]. pose proof (@hf_le_sq d (e + t) Hd) as C. destruct (@hf_nonneg d (e + t) Hd) as [D _].
  set (s := - (e + t)). assert (Hs : 0 <= s) by (unfold s; lra). assert (Et : t = - (e + s)) by (unfold s; lra). clearbody s. subst t. replace (e + - (e + s)) with (- s) in * by lra. set (h2 := huber_formula d (- s)) in *. set (h := huber_formula d e) in *. set (c := clip e (- d) d) in *.
  replace (v * h2 - u * h - - (e + s) * (u * c)) with (v * h2 + u * (e * c - h + s * c)) by lra. assert (P : 0 <= e * c - h + s * c) by nra. assert (Q : e * c - h + s * c <= e * e / 2 + s * e) by nra.
  apply abs_between. split; [|].
  - assert (0 <= v * h2) by nra. assert (0 <= u * (e * c - h + s * c)) by nra. nra.
  - assert (v * h2 <= h2) by nra. assert (u * (e * c - h + s * c) <= e * c - h + s * c) by nra. nra.
Qed.
Lemma qf_smooth : forall d tau e t, 0 < d -> 0 <= tau <= 1 -> Rabs (quantile_formula d tau (e + t) - quantile_formula d tau e - t * (quantile_weight tau e * clip e (- d) d / d)) <= t * t / (2 * d).
Proof.
  intros d tau e t Hd Ht. assert (I : 0 < / d) by now apply Rinv_0_lt_compat. unfold quantile_formula.
  replace (quantile_weight tau (e + t) * huber_formula d (e + t) / d - quantile_weight tau e * huber_formula d e / d - t * (quantile_weight tau e * clip e (- d) d / d))
    with ((quantile_weight tau (e + t) * huber_formula d (e + t) - quantile_weight tau e * huber_formula d e - t * (quantile_weight tau e * clip e (- d) d)) * / d) by (field; lra).
  rewrite Rabs_mult, (Rabs_right (/ d)) by lra. replace (t * t / (2 * d)) with (t * t / 2 * / d) by (field; lra). apply Rmult_le_compat_r; [lra|].
  unfold quantile_weight. destruct (Rlt_dec e 0) as [L|L], (Rlt_dec (e + t) 0) as [M|M].
  1, 4: pose proof (@hf_smooth d e t Hd) as S; set (q := huber_formula d (e + t) - huber_formula d e - t * clip e (- d) d) in *;
    match goal with |- Rabs (?w * _ - _ - _) <= _ => replace (w * huber_formula d (e + t) - w * huber_formula d e - t * (w * clip e (- d) d)) with (w * q) by (unfold q; lra); apply abs_between; split; nra end.
  - pose proof (@cross d (1 - tau) tau (- e) (- t) Hd) as C. replace (- e + - t) with (- (e + t)) in C by lra. rewrite !hf_opp, clip_opp in C by auto.
    replace (tau * huber_formula d (e + t) - (1 - tau) * huber_formula d e - t * ((1 - tau) * clip e (- d) d)) with (tau * huber_formula d (e + t) - (1 - tau) * huber_formula d e - - t * ((1 - tau) * - clip e (- d) d)) by lra.
    replace (t * t / 2) with (- t * - t / 2) by lra. apply C; lra.
  - apply cross; lra.
Qed.
Lemma quad_deriv : forall f x a K, 0 <= K -> (forall t, Rabs (f (x + t) - f x - t * a) <= K * (t * t)) -> derivable_pt_lim f x a.
Proof.
  intros f x a K HK H eps He. assert (P : 0 < eps / (K + 1)) by (apply Rmult_lt_0_compat; auto; apply Rinv_0_lt_compat; lra). exists (mkposreal _ P). intros t Ht Hlt. cbn in Hlt.
  replace ((f (x + t) - f x) / t - a) with ((f (x + t) - f x - t * a) * / t) by (field; auto). rewrite Rabs_mult, Rabs_inv. assert (T : 0 < Rabs t) by now apply Rabs_pos_lt.
  apply (Rmult_lt_reg_r (Rabs t)); auto. rewrite Rmult_assoc, Rinv_l, Rmult_1_r by lra. apply (Rle_lt_trans _ _ _ (H t)).
  assert (TT : t * t = Rabs t * Rabs t) by (rewrite <- Rabs_mult; symmetry; apply Rabs_right; apply Rle_ge, Rle_0_sqr). rewrite TT. assert (L : Rabs t * (K + 1) < eps) by (apply (Rmult_lt_compat_r (K + 1)) in Hlt; [|lra]; unfold Rdiv in Hlt; rewrite Rmult_assoc, Rinv_l, Rmult_1_r in Hlt by lra; auto). nra.
Qed.
Lemma qf_deriv_pred : forall d tau y h, 0 < d -> 0 <= tau <= 1 -> derivable_pt_lim (fun h => quantile_formula d tau (y - h)) h (- (quantile_weight tau (y - h) * clip (y - h) (- d) d / d)).
Proof.
  intros d tau y h Hd Ht. apply quad_deriv with (K := / (2 * d)); [left; apply Rinv_0_lt_compat; lra|]. intros t. pose proof (@qf_smooth d tau (y - h) (- t) Hd Ht) as S. replace (y - h + - t) with (y - (h + t)) in S by lra.
  replace (quantile_formula d tau (y - (h + t)) - quantile_formula d tau (y - h) - t * - (quantile_weight tau (y - h) * clip (y - h) (- d) d / d)) with (quantile_formula d tau (y - (h + t)) - quantile_formula d tau (y - h) - - t * (quantile_weight tau (y - h) * clip (y - h) (- d) d / d)) by lra.
  replace (/ (2 * d) * (t * t)) with (- t * - t / (2 * d)) by (field; lra). exact S.
Qed.
Lemma deriv_total : forall (A : Type) (f f' : A -> R -> R) x l, (forall a, In a l -> derivable_pt_lim (f a) x (f' a x)) -> derivable_pt_lim (fun h => total (map (fun a => f a h) l)) x (total (map (fun a => f' a x) l)).
Proof.
  intros A f f' x l H. induction l as [|a l IH].
  - cbn [map]. change (total []) with 0. apply derivable_pt_lim_const.
  - cbn [map]. rewrite total_cons. eapply derivable_pt_lim_ext; [intros z; cbn [map]; rewrite total_cons; reflexivity|]. apply (derivable_pt_lim_plus (f a) (fun h => total (map (fun a => f a h) l))); [apply H; now left|apply IH; intros; apply H; now right].
Qed.
Lemma balance : forall d tau h ys, 0 < d -> (forall y, In y ys -> d <= Rabs (y - h)) ->
  total (map (fun y => - (quantile_weight tau (y - h) * clip (y - h) (- d) d / d)) ys) = (1 - tau) * INR (below h ys) - tau * INR (above h ys).
Proof.
  intros d tau h ys Hd H. induction ys as [|y ys IH].
  - cbn. change (total []) with 0. lra.
  - cbn [map]. rewrite total_cons, IH by (intros; apply H; now right). specialize (H y (or_introl eq_refl)). unfold below, above. cbn [filter]. unfold quantile_weight. unfold Rabs in H. destruct (Rcase_abs (y - h)) as [N|N].
    + destruct (Rlt_dec (y - h) 0); [|lra]. destruct (Rlt_dec y h); [|lra]. destruct (Rlt_dec h y); [lra|]. cbn [length]. rewrite S_INR. rewrite (@clip_low (y - h) (- d) d) by lra. field. lra.
    + destruct (Rlt_dec (y - h) 0); [lra|]. destruct (Rlt_dec y h); [lra|]. destruct (Rlt_dec h y); [|lra]. cbn [length]. rewrite S_INR. rewrite (@clip_high (y - h) (- d) d) by lra. field. lra.
Qed.

(** * Logistic batches *)
Lemma ezip_sign : forall ys zs, (forall y, In y ys -> y = 1 \/ y = -1) -> ezip logloss1 (map (fun y => (y + 1) / 2) ys) (map sigmoid zs) = map Fin (zipw logloss_sign1 ys zs).
Proof.
  induction ys as [|y ys IH]; intros [|z zs] H; cbn [map ezip zipw]; auto. f_equal; [apply sign_agree, H; now left|apply IH; intros; apply H; now right].
Qed.
Lemma escale_fin : forall c x, escale c (Fin x) = Fin (c * x). Proof. reflexivity. Qed.
Lemma emean_fin : forall l, emean (map Fin l) = match jmean l with Some x => Fin x | None => NaN end.
Proof.
  intros l. assert (E : fold_right eadd (Fin 0) (map Fin l) = Fin (rsum l)).
  { rewrite rsum_total. induction l as [|x l IH]; [reflexivity|]. rewrite total_cons. cbn [map fold_right]. rewrite IH. unfold eadd. cbn [escale esub]. f_equal. lra. }
  unfold emean, jmean. destruct l as [|x l]; auto. change (map Fin (x :: l)) with (Fin x :: map Fin l) in *. rewrite E. cbn [escale length]. rewrite map_length. f_equal. unfold Rdiv. lra.
Qed.
Lemma zip_weights : forall w l, map (fun wl => escale (fst wl) (snd wl)) (combine w (map Fin l)) = map Fin (concat (map (fun wl => map (Rmult (fst wl)) (snd wl)) (combine w (map (fun x => [x]) l)))).
Proof. induction w as [|c w IH]; intros [|x l]; cbn; auto. now rewrite IH. Qed.
Lemma logloss_batch : forall ys zs w, (forall y, In y ys -> y = 1 \/ y = -1) ->
  logloss (map (fun y => (y + 1) / 2) ys) (map sigmoid zs) w = match logloss_sign ys zs w with Ok (Some x) => Ok (Fin x) | Ok None => Ok NaN | Err e => Err e end.
Proof.
  intros ys zs w H. unfold logloss, logloss_sign, zip_loss. rewrite !map_length. destruct (Nat.eqb (length ys) (length zs)); auto. rewrite ezip_sign by auto. rewrite map_length. destruct w as [w|]; cbn [mean_w].
  - rewrite map_length. destruct (Nat.eqb _ _); auto. rewrite zip_weights, emean_fin. destruct (jmean _); auto.
  - rewrite emean_fin, concat_map_single. destruct (jmean _); auto.
Qed.
Lemma logloss_sign_pos : forall y z, 0 < logloss_sign1 y z.
Proof. intros y z. unfold logloss_sign1. pose proof (exp_pos (- y * z)). rewrite <- ln_1. apply ln_increasing; lra. Qed.
Lemma logloss_pos_batch : forall ys zs w x, (forall c, In c w -> 0 <= c) -> logloss_sign ys zs (Some w) = Ok (Some x) -> 0 <= x.
Proof.
  intros ys zs w x H E. unfold logloss_sign, zip_loss in E. destruct (Nat.eqb_spec (length ys) (length zs)) as [L|L]; [|discriminate]. cbn [mean_w] in E. rewrite map_length, zipw_length in E by auto. destruct (Nat.eqb_spec (length ys) (length w)); [|discriminate].
  destruct ys as [|y ys]; [destruct w; discriminate|]. assert (Z : zip_loss logloss_sign1 (y :: ys) zs (Some w) = Ok (Some x)). { unfold zip_loss. rewrite L, Nat.eqb_refl. cbn [mean_w]. rewrite map_length, zipw_length by auto. rewrite (proj2 (Nat.eqb_eq _ _)) by auto. exact E. }
  rewrite zip_loss_some in Z by (auto; discriminate). injection Z as <-. unfold weighted_mean. apply Rmult_le_pos; [|left; apply Rinv_0_lt_compat, lt_0_INR; cbn; lia].
  rewrite <- rsum_total. apply rsum_nonneg. intros v Hv. apply in_map_iff in Hv. destruct Hv as (i & <- & Hi). apply in_seq in Hi. apply Rmult_le_pos; [apply H, nth_In; rewrite <- e; cbn [length]; lia|].
  left. apply logloss_sign_pos.
Qed.

Lemma logloss_one : forall y p, 0 < p < 1 -> logloss [y] [p] None = Ok (Fin (- y * ln p - (1 - y) * ln (1 - p))).
Proof.
  intros y p Hp. unfold logloss. cbn [length Nat.eqb ezip]. rewrite logloss_in by auto. change [Fin (- y * ln p - (1 - y) * ln (1 - p))] with (map Fin [- y * ln p - (1 - y) * ln (1 - p)]). rewrite emean_fin. cbn [jmean length].
  rewrite rsum_total, total_cons. change (total []) with 0. change (INR 1) with 1. f_equal. f_equal. lra.
Qed.
Lemma logloss_proper : forall y p, 0 < y < 1 -> 0 < p < 1 -> exists a b, logloss [y] [y] None = Ok (Fin a) /\ logloss [y] [p] None = Ok (Fin b) /\ a <= b /\ (a = b <-> p = y).
Proof.
  intros y p Hy Hp. do 2 eexists. split; [now apply logloss_one|]. split; [now apply logloss_one|].
  assert (P1 : 0 < p / y) by (apply Rmult_lt_0_compat; [lra|apply Rinv_0_lt_compat; lra]). assert (P2 : 0 < (1 - p) / (1 - y)) by (apply Rmult_lt_0_compat; [lra|apply Rinv_0_lt_compat; lra]).
  pose proof (ln_le_minus1 P1) as L1. pose proof (ln_le_minus1 P2) as L2. rewrite ln_div in L1 by lra. rewrite ln_div in L2 by lra.
  assert (S1 : y * (p / y - 1) = p - y) by (field; lra). assert (S2 : (1 - y) * ((1 - p) / (1 - y) - 1) = y - p) by (field; lra).
  assert (M1 : y * (ln p - ln y) <= p - y) by (rewrite <- S1; apply Rmult_le_compat_l; lra). assert (M2 : (1 - y) * (ln (1 - p) - ln (1 - y)) <= y - p) by (rewrite <- S2; apply Rmult_le_compat_l; lra).
  split; [lra|]. split; [|intros ->; lra]. intros E. assert (Q : ln (p / y) = p / y - 1). { apply Rle_antisym; [now apply ln_le_minus1|]. rewrite ln_div by lra. apply (Rmult_le_reg_l y); [lra|]. rewrite S1. lra. }
  apply ln_eq_minus1 in Q; auto. replace p with (p / y * y) by (field; lra). rewrite Q. lra.
Qed.

(** * Quantile batches *)
Lemma qhuber_row_eq : forall d y h t, 0 < d -> length t = length h -> (forall x, In x t -> 0 <= x <= 1) -> qhuber_row d y h t = map (quantile_row d y h t) (seq 0 (length h)).
Proof.
  intros d y h t Hd. revert t. induction h as [|a h IH]; intros [|b t] L Ht; cbn in L; try lia; auto. unfold qhuber_row. cbn [combine map length seq fst snd]. fold (qhuber_row d y h t). rewrite IH by (auto; intros; apply Ht; now right).
  rewrite <- seq_shift, map_map. f_equal. unfold quantile_row. cbn [nth]. rewrite rsum_total. f_equal. rewrite <- (map_nth_seq y 0) at 1. rewrite map_map. apply map_ext. intros j. apply qhuber_eq; auto. apply Ht. now left.
Qed.
Lemma qhuber_rows_length : forall d y h t, length h = length y -> length t = length y -> length (qhuber_rows d y h t) = length y.
Proof. intros d y. induction y as [|a y IH]; intros [|b h] [|c t] E1 E2; cbn in *; try lia. now rewrite IH by lia. Qed.
Lemma nth_qhuber_rows : forall d y h t b, length h = length y -> length t = length y -> (b < length y)%nat -> nth b (qhuber_rows d y h t) [] = qhuber_row d (nth b y []) (nth b h []) (nth b t []).
Proof. intros d y. induction y as [|a y IH]; intros [|b h] [|c t] k E1 E2 Hk; cbn in *; try lia. destruct k; auto. apply IH; lia. Qed.
Lemma length_concat_const : forall (A : Type) (l : list (list A)) n, (forall x, In x l -> length x = n) -> length (concat l) = (length l * n)%nat.
Proof. intros A l n H. induction l as [|x l IH]; auto. cbn [concat]. rewrite app_length, IH by (intros; apply H; now right). rewrite (H x) by now left. cbn [length]. lia. Qed.
Lemma total_concat : forall l, total (concat l) = total (map total l).
Proof. induction l as [|x l IH]; auto. cbn [concat map]. rewrite total_app, total_cons. now rewrite IH. Qed.
Lemma nth_map_any : forall (A B : Type) (f : A -> B) l k d d', (k < length l)%nat -> nth k (map f l) d = f (nth k l d').
Proof. intros A B f l k d d' H. rewrite (nth_indep _ d (f d')) by (now rewrite map_length). apply map_nth. Qed.
Lemma quantile_batch : forall d y h t w n, 0 < d -> (1 <= n)%nat -> y <> [] -> length h = length y -> length t = length y -> length w = length y ->
  (forall b, (b < length y)%nat -> length (nth b h []) = n /\ length (nth b t []) = n /\ forall x, In x (nth b t []) -> 0 <= x <= 1) ->
  quantile_huber d y h t (Some w) = Ok (Some (weighted_mean (fun b => mean (map (quantile_row d (nth b y []) (nth b h []) (nth b t [])) (seq 0 n))) (fun b => nth b w 0) (length y))).
Proof.
  intros d y h t w n Hd Hn NE Eh Et Ew Hr. unfold quantile_huber. cbn [mean_w]. rewrite qhuber_rows_length by auto. rewrite (proj2 (Nat.eqb_eq _ _)) by auto. f_equal.
  assert (C : map (fun wl => map (Rmult (fst wl)) (snd wl)) (combine w (qhuber_rows d y h t)) = map (fun b => map (fun k => nth b w 0 * quantile_row d (nth b y []) (nth b h []) (nth b t []) k) (seq 0 n)) (seq 0 (length y))).
  { apply (@list_eq_nth _ []).
    - rewrite !map_length, combine_length, seq_length, qhuber_rows_length by auto. lia.
    - intros b Hb. rewrite map_length, combine_length, qhuber_rows_length in Hb by auto. assert (Hb' : (b < length y)%nat) by lia. destruct (Hr b Hb') as (R1 & R2 & R3).
      rewrite (@nth_map_any _ _ _ (combine w (qhuber_rows d y h t)) b [] (0, [])) by (rewrite combine_length, qhuber_rows_length by auto; lia).
      rewrite combine_nth by (rewrite qhuber_rows_length; lia). cbn [fst snd]. rewrite nth_qhuber_rows by auto. rewrite qhuber_row_eq by (auto; lia). rewrite R1, map_map.
      rewrite (@nth_map_any _ _ _ (seq 0 (length y)) b [] 0%nat) by (rewrite seq_length; lia). rewrite seq_nth by lia. reflexivity. }
  rewrite C. set (rows := map _ (seq 0 (length y))). assert (LR : length rows = length y) by (unfold rows; now rewrite map_length, seq_length).
  assert (LC : length (concat rows) = (length y * n)%nat). { rewrite <- LR. apply length_concat_const. intros x Hx. unfold rows in Hx. apply in_map_iff in Hx. destruct Hx as (b & <- & _). now rewrite map_length, seq_length. }
  assert (Hy : (1 <= length y)%nat) by (destruct y; [congruence|cbn; lia]). unfold jmean. destruct (concat rows) as [|r0 rest] eqn:EC; [cbn in LC; nia|]. rewrite <- EC in *. f_equal. rewrite LC, rsum_total, total_concat, mult_INR. unfold weighted_mean. unfold rows. rewrite map_map.
  assert (0 < INR n) by (apply lt_0_INR; lia). assert (0 < INR (length y)) by (apply lt_0_INR; lia).
  rewrite (@total_ext _ _ (fun b => INR n * (nth b w 0 * mean (map (quantile_row d (nth b y []) (nth b h []) (nth b t [])) (seq 0 n))))).
  - rewrite total_scal. field. split; lra.
  - intros b _. rewrite total_scal. unfold mean. rewrite map_length, seq_length. field. lra.
Qed.
