From Coq Require Import List Lia Bool Arith Reals Lra.
From Verif Require Import PyCommon CommonProofs UtilsModel UtilsSpec UtilsProofs2 UtilsProofs3 WrappersProofs DistModel DistSpec DistProofs DistProofs2 DistProofs3 LossModel LossSpec LossProofs QModel QProofs QProps TDModel TDSpec TDProofs TDProofs2 TDProofs3 TDProofs4 CoreModel CoreSpec CoreProofs CoreProofs2 StochModel LearnModel LearnSpec LearnProofs LearnProofs2 LearnProofs3 LearnProofs5 NoiseProofs2 MbModel MbSpec MbProofs.
Import ListNotations.
Set Implicit Arguments.
Local Open Scope R_scope.

(** * Weighted sums *)
Lemma cw_pos : forall x, 1/10 <= cw x.
Proof. intros. unfold cw. apply Rmax_l. Qed.
Lemma wsum_ext : forall P h h' rows, (forall x, In x rows -> P x = true -> h x = h' x) -> wsum P h rows = wsum P h' rows.
Proof. intros P h h' rows H. unfold wsum. apply total_ext. intros x Hx. destruct (P x) eqn:E; auto. now rewrite H. Qed.
Lemma wsum_pred : forall P P' h rows, (forall x, In x rows -> P x = P' x) -> wsum P h rows = wsum P' h rows.
Proof. intros P P' h rows H. unfold wsum. apply total_ext. intros x Hx. now rewrite H. Qed.
Lemma wsum_plus : forall P h h' rows, wsum P (fun x => h x + h' x) rows = wsum P h rows + wsum P h' rows.
Proof. intros. unfold wsum. rewrite <- total_plus. apply total_ext. intros x _. destruct (P x); ring. Qed.
Lemma wsum_scal : forall P h c rows, wsum P (fun x => c * h x) rows = c * wsum P h rows.
Proof. intros. unfold wsum. rewrite <- total_scal. apply total_ext. intros x _. destruct (P x); ring. Qed.
Lemma wsum_const : forall P c rows, wsum P (fun _ => c) rows = c * wsum P (fun _ => 1) rows.
Proof. intros. rewrite <- wsum_scal. apply wsum_ext. intros. ring. Qed.
Lemma wsum_le : forall P h h' rows, (forall x, In x rows -> P x = true -> h x <= h' x) -> wsum P h rows <= wsum P h' rows.
Proof. intros P h h' rows H. unfold wsum. apply total_le. intros x Hx. destruct (P x) eqn:E; [|lra]. pose proof (cw_pos x). specialize (H x Hx E). nra. Qed.
Lemma wsum_abs : forall P h rows, Rabs (wsum P h rows) <= wsum P (fun x => Rabs (h x)) rows.
Proof.
  intros P h rows. assert (U : wsum P h rows <= wsum P (fun x => Rabs (h x)) rows) by (apply wsum_le; intros; apply Rle_abs).
  assert (V : wsum P (fun x => - 1 * h x) rows <= wsum P (fun x => Rabs (h x)) rows) by (apply wsum_le; intros x _ _; replace (- 1 * h x) with (- h x) by ring; rewrite <- Rabs_Ropp; apply Rle_abs).
  rewrite wsum_scal in V. unfold Rabs at 1. destruct (Rcase_abs _); lra.
Qed.
Lemma weight_in : forall P rows x, In x rows -> P x = true -> 1/10 <= wsum P (fun _ => 1) rows.
Proof.
  intros P rows x Hx E. unfold wsum. eapply Rle_trans; [|apply (@total_in_le _ (fun x => if P x then cw x * 1 else 0) rows x); auto].
  - cbv beta. rewrite E. pose proof (cw_pos x). lra.
  - intros y _. cbv beta. destruct (P y); [|lra]. pose proof (cw_pos y). lra.
Qed.
Lemma weight_nonneg : forall P rows, 0 <= wsum P (fun _ => 1) rows.
Proof. intros P rows. assert (X := @wsum_le P (fun _ => 0) (fun _ => 1) rows). rewrite (wsum_const P 0) in X. rewrite Rmult_0_l in X. apply X. intros; lra. Qed.
Lemma weight_zero : forall P rows, (forall x, In x rows -> P x = false) -> forall h, wsum P h rows = 0.
Proof. intros P rows H h. unfold wsum. rewrite (@total_ext _ _ (fun _ => 0)) by (intros x Hx; now rewrite H). rewrite total_const. ring. Qed.
Lemma weight_case : forall P (rows : list trans), (forall x, In x rows -> P x = false) \/ exists x, In x rows /\ P x = true.
Proof.
  intros P rows. induction rows as [|y rows [IH|(x & Hx & E)]]; [left; intros ? []| |right; exists x; split; auto; now right]. destruct (P y) eqn:E; [right; exists y; split; auto; now left|]. left. intros x [<-|Hx]; auto.
Qed.
Lemma wsum_wmean : forall P h rows, wsum P h rows = wsum P (fun _ => 1) rows * wmean P h rows.
Proof.
  intros P h rows. unfold wmean. destruct (weight_case P rows) as [Z|(x & Hx & E)]; [rewrite !(weight_zero P rows Z); ring|]. pose proof (weight_in P rows x Hx E). field. lra.
Qed.
Lemma wsum_dev : forall P h c rows, wsum P (fun x => c - h x) rows = wsum P (fun _ => 1) rows * (c - wmean P h rows).
Proof.
  intros P h c rows. rewrite (@wsum_ext P _ (fun x => c + - 1 * h x)) by (intros; ring). rewrite wsum_plus, wsum_scal, wsum_const, (wsum_wmean P h). ring.
Qed.
Lemma wmean_bounds : forall P h rows lo hi, (exists x, In x rows /\ P x = true) -> (forall x, In x rows -> P x = true -> lo <= h x <= hi) -> lo <= wmean P h rows <= hi.
Proof.
  intros P h rows lo hi (x & Hx & E) H. pose proof (weight_in P rows x Hx E) as W. assert (A : wsum P (fun _ => lo) rows <= wsum P h rows) by (apply wsum_le; intros; now apply H). assert (B : wsum P h rows <= wsum P (fun _ => hi) rows) by (apply wsum_le; intros; now apply H).
  rewrite wsum_const in A, B. rewrite (wsum_wmean P h) in A, B. split; apply (Rmult_le_reg_l (wsum P (fun _ => 1) rows)); lra.
Qed.
Lemma wmean_ext : forall P h h' rows, (forall x, In x rows -> P x = true -> h x = h' x) -> wmean P h rows = wmean P h' rows.
Proof. intros. unfold wmean. now rewrite (@wsum_ext P h h'). Qed.
Lemma wmean_plus : forall P h h' rows, wmean P (fun x => h x + h' x) rows = wmean P h rows + wmean P h' rows.
Proof. intros. unfold wmean. rewrite wsum_plus. unfold Rdiv. ring. Qed.
Lemma wmean_scal : forall P h c rows, wmean P (fun x => c * h x) rows = c * wmean P h rows.
Proof. intros. unfold wmean. rewrite wsum_scal. unfold Rdiv. ring. Qed.
(** The distance of two means. *)
Lemma wmean_close : forall P h h' rows D, (exists x, In x rows /\ P x = true) -> (forall x, In x rows -> P x = true -> Rabs (h x - h' x) <= D) -> Rabs (wmean P h rows - wmean P h' rows) <= D.
Proof.
  intros P h h' rows D E H. replace (wmean P h rows - wmean P h' rows) with (wmean P (fun x => h x + - 1 * h' x) rows) by (rewrite wmean_plus, wmean_scal; ring).
  assert (X : - D <= wmean P (fun x => h x + - 1 * h' x) rows <= D). { apply wmean_bounds; auto. intros x Hx Ex. specialize (H x Hx Ex). replace (h x + - 1 * h' x) with (h x - h' x) by ring. unfold Rabs in H. destruct (Rcase_abs _); lra. }
  unfold Rabs. destruct (Rcase_abs _); lra.
Qed.
(** Steps towards a mean. *)
Lemma weight_le : forall P rows lr, rate_fits lr rows -> lr * wsum P (fun _ => 1) rows <= INR (length rows).
Proof.
  intros P rows lr [L0 L]. unfold wsum. rewrite <- total_scal. rewrite <- (Rmult_1_r (INR (length rows))), <- (total_const 1 rows). apply total_le. intros x Hx. specialize (L x Hx). destruct (P x); nra.
Qed.
Lemma length_pos : forall rows : list trans, rows <> [] -> 0 < INR (length rows).
Proof. intros rows H. apply lt_0_INR. destruct rows; [congruence|cbn; lia]. Qed.
Definition share (lr M : R) (P : trans -> bool) (rows : list trans) : R := lr * wsum P (fun _ => 1) rows / M.
Lemma share_bounds : forall lr M P rows, rate_fits lr rows -> rows <> [] -> INR (length rows) <= M -> 0 <= share lr M P rows <= 1.
Proof.
  intros lr M P rows RF NE HM. pose proof (length_pos NE). pose proof (weight_le P RF). pose proof (weight_nonneg P rows). destruct RF as [L0 _]. unfold share. split; [apply Rmult_le_pos; [nra|left; apply Rinv_0_lt_compat; lra]|].
  apply (Rmult_le_reg_r M); [lra|]. unfold Rdiv. rewrite Rmult_assoc, Rinv_l by lra. lra.
Qed.
Lemma share_low : forall lr M P rows, 0 < lr -> 0 < M -> (exists x, In x rows /\ P x = true) -> lr / (10 * M) <= share lr M P rows.
Proof.
  intros lr M P rows L0 HM (x & Hx & E). pose proof (weight_in P rows x Hx E). unfold share. replace (lr / (10 * M)) with (lr * (1/10) * / M) by (field; lra). unfold Rdiv. apply Rmult_le_compat_r; [left; now apply Rinv_0_lt_compat|]. apply Rmult_le_compat_l; lra.
Qed.
Lemma step_mean : forall lr M P h rows th, th - lr * (wsum P (fun x => th - h x) rows / M) = wmean P h rows + (1 - share lr M P rows) * (th - wmean P h rows).
Proof. intros. rewrite wsum_dev. unfold share, Rdiv. ring. Qed.

(** * Losses *)
Lemma quadratic_slope : forall l D, quadratic l D -> exists l', (forall y h, derivable_pt_lim (l y) h (l' y h)) /\ forall y h, Rabs (h - y) <= D -> l' y h = h - y.
Proof.
  intros l D [->|(d & -> & Hd & HD)]; [exists (fun y h => h - y); split; [exact mse_deriv|auto]|]. exists (fun y h => clip (h - y) (- d) d). split; [intros; now apply huber_deriv|]. intros y h H. apply clip_in; unfold Rabs in H; destruct (Rcase_abs _); lra.
Qed.

(** * The entries of the gradients as weighted sums *)
Section Data.
Variables nS nA : nat.
Variable gamma : R.
Variable rows : list trans.
Hypothesis HB : bounded nS nA rows.
Let N := INR (length rows).
Lemma r_entry : forall l' th s a, (s < nS)%nat -> (a < nA)%nat -> cells_grad l' N (r_cells nA rows) th (s * nA + a) = wsum (at_sa s a) (fun x => l' (t_r x) (nth (s * nA + a) th 0)) rows / N.
Proof.
  intros l' th s a Hs Ha. unfold cells_grad, wsum, r_cells. f_equal. rewrite map_map. apply total_ext. intros x Hx. unfold cpos, cwt, cy, at_sa. cbn [fst snd]. destruct (HB x Hx) as (A & B & _).
  destruct (Nat.eqb_spec (t_s x * nA + t_a x) (s * nA + a)) as [E|E].
  - destruct (@index_inj nA _ _ _ _ B Ha E) as [E1 E2]. rewrite <- E1, <- E2, !Nat.eqb_refl. reflexivity.
  - destruct (Nat.eqb_spec (t_s x) s); cbn [andb]; auto. destruct (Nat.eqb_spec (t_a x) a); auto. congruence.
Qed.
Lemma v_entry : forall l' v th s, cells_grad l' N (v_cells gamma rows v) th s = wsum (at_s s) (fun x => l' (v_targ gamma v x) (nth s th 0)) rows / N.
Proof. intros. unfold cells_grad, wsum, v_cells. f_equal. rewrite map_map. apply total_ext. intros x Hx. reflexivity. Qed.
Lemma p_entry : forall l' M th s a k, (s < nS)%nat -> (a < nA)%nat -> (k < nS)%nat ->
  cells_grad l' M (p_cells nS nA rows) th ((s * nA + a) * nS + k) = wsum (at_sa s a) (fun x => l' (if Nat.eqb k (t_next x) then 1 else 0) (nth ((s * nA + a) * nS + k) th 0)) rows / M.
Proof.
  intros l' M th s a k Hs Ha Hk. unfold cells_grad, wsum, p_cells. f_equal. rewrite flat_map_concat_map, concat_map, map_map, total_concat, map_map. apply total_ext. intros x Hx. rewrite map_map. unfold cpos, cwt, cy, at_sa. cbn [fst snd]. destruct (HB x Hx) as (A & B & _).
  destruct (Nat.eqb_spec (t_s x) s) as [E1|E1]; cbn [andb]; [destruct (Nat.eqb_spec (t_a x) a) as [E2|E2]|].
  - rewrite E1, E2. rewrite (@total_pick _ nS k Hk); [now rewrite Nat.eqb_refl|]. intros j Hj. destruct (Nat.eqb_spec ((s * nA + a) * nS + j) ((s * nA + a) * nS + k)); [lia|auto].
  - rewrite (@total_ext _ _ (fun _ => 0)); [rewrite total_const; ring|]. intros j Hj. apply in_seq in Hj. destruct (Nat.eqb_spec ((t_s x * nA + t_a x) * nS + j) ((s * nA + a) * nS + k)) as [C|]; auto.
    exfalso. assert (J : (j < nS)%nat) by lia. destruct (@index_inj nS _ _ _ _ J Hk C) as [C1 _]. destruct (@index_inj nA _ _ _ _ B Ha C1). congruence.
  - rewrite (@total_ext _ _ (fun _ => 0)); [rewrite total_const; ring|]. intros j Hj. apply in_seq in Hj. destruct (Nat.eqb_spec ((t_s x * nA + t_a x) * nS + j) ((s * nA + a) * nS + k)) as [C|]; auto.
    exfalso. assert (J : (j < nS)%nat) by lia. destruct (@index_inj nS _ _ _ _ J Hk C) as [C1 _]. destruct (@index_inj nA _ _ _ _ B Ha C1). congruence.
Qed.

(** * The values of the data set *)
Hypothesis Hg : 0 <= gamma < 1.
Hypothesis ES : every_state nS rows.
Definition back (v : nat -> R) (s : nat) : R := wmean (at_s s) (fun x => t_r x + (if t_done x then 0 else gamma * v (t_next x))) rows.
Lemma at_some : forall s, (s < nS)%nat -> exists x, In x rows /\ at_s s x = true.
Proof. intros s Hs. destruct (ES Hs) as (x & Hx & E). exists x. split; auto. unfold at_s. now apply Nat.eqb_eq. Qed.
Lemma back_close : forall v v' D, 0 <= D -> (forall s, (s < nS)%nat -> Rabs (v s - v' s) <= D) -> forall s, (s < nS)%nat -> Rabs (back v s - back v' s) <= gamma * D.
Proof.
  intros v v' D HD H s Hs. unfold back. apply wmean_close; [now apply at_some|]. intros x Hx _. destruct (HB x Hx) as (_ & _ & C). destruct (t_done x).
  - match goal with |- Rabs ?e <= _ => replace e with 0 by ring end. rewrite Rabs_R0. apply Rmult_le_pos; lra.
  - match goal with |- Rabs ?e <= _ => replace e with (gamma * (v (t_next x) - v' (t_next x))) by ring end. rewrite Rabs_mult, (Rabs_right gamma) by lra. apply Rmult_le_compat_l; [lra|]. now apply H.
Qed.
Lemma values_exist : exists v, data_values nS gamma rows v.
Proof.
  pose (F := fun (q : nat -> nat -> R) (s _ : nat) => back (fun s => q s 0%nat) s).
  assert (CF : forall q q' eps, 0 <= eps -> near nS 1 q q' eps -> near nS 1 (F q) (F q') (gamma * eps)).
  { intros q q' eps He H s a Hs Ha. unfold F. apply back_close; auto. }
  exists (fun s => @fixed nS 1 F gamma Hg CF s 0%nat). intros s Hs. exact (@fixed_ok nS 1 F gamma Hg CF s 0%nat Hs (le_n 1)).
Qed.
Lemma values_unique : forall v v', data_values nS gamma rows v -> data_values nS gamma rows v' -> forall s, (s < nS)%nat -> v s = v' s.
Proof.
  intros v v' H H' s Hs. set (C := bound nS 1 (fun s _ => v s - v' s)). assert (P : 0 <= C) by apply bound_pos.
  assert (X : forall n s, (s < nS)%nat -> Rabs (v s - v' s) <= gamma ^ n * C).
  { induction n as [|n IH]; intros s' Hs'; [cbn [pow]; rewrite Rmult_1_l; exact (@bound_ok nS 1 (fun s _ => v s - v' s) s' 0%nat Hs' (le_n 1))|]. cbn [pow]. rewrite Rmult_assoc. rewrite (H s' Hs'), (H' s' Hs'). apply back_close; auto. apply Rmult_le_pos; auto. apply pow_le; lra. }
  apply (@close_eq _ _ 1); [|lra]. intros eps He. destruct (@pow_small gamma C eps Hg P He) as [n Hn]. eapply Rle_trans; [apply (X n s Hs)|]. specialize (Hn n (le_n _)). lra.
Qed.
End Data.
