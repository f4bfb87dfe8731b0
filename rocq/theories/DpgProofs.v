(** Softmax policies that follow the gradient of their mean value: they never get worse, and they end up with the best actions, also if the
    values they are trained with still converge. *)
From Coq Require Import List Bool Arith ZArith Reals Lra Lia Classical.
From Verif Require Import UtilsSpec UtilsProofs3 DistProofs.
Import ListNotations.
Local Open Scope R_scope.

(** * Partial sums *)

Fixpoint ps (u : nat -> R) (N : nat) : R := match N with O => 0 | S k => ps u k + u k end.
Definition bdd (u : nat -> R) : Prop := exists B, forall N, ps u N <= B.
Lemma ps_le : forall u v N, (forall t, u t <= v t) -> ps u N <= ps v N.
Proof. intros u v N H. induction N as [|N IH]; cbn [ps]; [lra|]. specialize (H N). lra. Qed.
Lemma ps_plus : forall u v N, ps (fun t => u t + v t) N = ps u N + ps v N.
Proof. intros u v N. induction N as [|N IH]; cbn [ps]; [lra|]. rewrite IH. lra. Qed.
Lemma ps_scal : forall c u N, ps (fun t => c * u t) N = c * ps u N.
Proof. intros c u N. induction N as [|N IH]; cbn [ps]; [lra|]. rewrite IH. lra. Qed.
Lemma ps_mono : forall u M N, (forall t, 0 <= u t) -> (M <= N)%nat -> ps u M <= ps u N.
Proof. intros u M N H L. induction L as [|N L IH]; [lra|]. cbn [ps]. specialize (H N). lra. Qed.
Lemma ps_nonneg : forall u N, (forall t, 0 <= u t) -> 0 <= ps u N.
Proof. intros u N H. exact (@ps_mono u 0 N H ltac:(lia)). Qed.
Lemma bdd_le : forall u v, (forall t, u t <= v t) -> bdd v -> bdd u.
Proof. intros u v H (B & HB). exists B. intros N. specialize (HB N). pose proof (ps_le u v N H). lra. Qed.
Lemma bdd_plus : forall u v, bdd u -> bdd v -> bdd (fun t => u t + v t).
Proof. intros u v (B & HB) (C & HC). exists (B + C). intros N. rewrite ps_plus. specialize (HB N). specialize (HC N). lra. Qed.
Lemma bdd_scal : forall c u, 0 <= c -> bdd u -> bdd (fun t => c * u t).
Proof. intros c u Hc (B & HB). exists (c * B). intros N. rewrite ps_scal. apply Rmult_le_compat_l; auto. Qed.
Lemma bdd_zero : bdd (fun _ => 0).
Proof. exists 0. intros N. induction N as [|N IH]; cbn [ps]; lra. Qed.
Lemma ps_late : forall u v t0 N, (forall t, 0 <= u t) -> (forall t, 0 <= v t) -> (forall t, (t0 <= t)%nat -> u t <= v t) -> ps u N <= ps u (Nat.min N t0) + ps v N.
Proof.
  intros u v t0 N Hu Hv H. induction N as [|N IH]; [cbn; lra|]. destruct (le_lt_dec t0 N) as [L|L].
  - rewrite !Nat.min_r in * by lia. cbn [ps]. specialize (H N L). lra.
  - rewrite Nat.min_l in * by lia. cbn [ps]. pose proof (Hv N). pose proof (@ps_nonneg v N Hv). lra.
Qed.
Lemma bdd_late : forall u v t0, (forall t, 0 <= u t) -> (forall t, 0 <= v t) -> (forall t, (t0 <= t)%nat -> u t <= v t) -> bdd v -> bdd u.
Proof.
  intros u v t0 Hu Hv H (B & HB). exists (ps u t0 + B). intros N. pose proof (@ps_late u v t0 N Hu Hv H). pose proof (@ps_mono u (Nat.min N t0) t0 Hu ltac:(lia)). specialize (HB N). lra.
Qed.
Lemma unbdd : forall u, ~ bdd u -> forall B, exists N, B < ps u N.
Proof. intros u H B. apply NNPP. intros K. apply H. exists B. intros N. destruct (Rle_lt_dec (ps u N) B); auto. exfalso. apply K. eauto. Qed.
(** A falling summable sequence becomes small. *)
Lemma falling_small : forall T, (forall t, 0 <= T t) -> (forall t, T (S t) <= T t) -> bdd T -> forall e, 0 < e -> exists N, forall t, (N <= t)%nat -> T t <= e.
Proof.
  intros T Tp Tf (B & HB) e He. assert (M : forall s t, (s <= t)%nat -> T t <= T s) by (intros s t L; induction L as [|t L IH]; [lra|specialize (Tf t); lra]).
  apply NNPP. intros K. assert (A : forall t, e < T t).
  { intros t. destruct (Rle_lt_dec (T t) e); auto. exfalso. apply K. exists t. intros s L. specialize (M t s L). lra. }
  assert (Q : forall N, INR N * e <= ps T N). { induction N as [|N IH]; [cbn; lra|]. rewrite S_INR. cbn [ps]. specialize (A N). lra. }
  assert (U0 : exists N, B / e < INR N) by (destruct (archimed (Rmax 0 (B / e))) as [A1 _]; exists (Z.to_nat (up (Rmax 0 (B / e)))); rewrite INR_IZR_INZ, Z2Nat.id by (apply le_IZR; pose proof (Rmax_l 0 (B / e)); lra); pose proof (Rmax_r 0 (B / e)); lra). destruct U0 as (N & HN). assert (B < INR N * e) by (apply (Rmult_lt_compat_r e) in HN; [unfold Rdiv in HN; rewrite Rmult_assoc, Rinv_l in HN by lra; lra|auto]). specialize (Q N). specialize (HB N). lra.
Qed.

(** * One step *)

Section Softmax.
Variable n : nat.
Hypothesis N1 : (1 <= n)%nat.
Notation Sm f := (total (map f (seq 0 n))).
Lemma sm_le : forall f g, (forall a, (a < n)%nat -> f a <= g a) -> Sm f <= Sm g.
Proof. intros f g H. apply total_le. intros a Ha. apply in_seq in Ha. apply H. lia. Qed.
Lemma sm_ext : forall f g, (forall a, (a < n)%nat -> f a = g a) -> Sm f = Sm g.
Proof. intros f g H. apply total_ext. intros a Ha. apply in_seq in Ha. apply H. lia. Qed.
Lemma sm_plus : forall f g : nat -> R, Sm (fun a => f a + g a) = Sm f + Sm g. Proof. intros. apply total_plus. Qed.
Lemma sm_minus : forall f g : nat -> R, Sm (fun a => f a - g a) = Sm f - Sm g. Proof. intros. apply total_minus. Qed.
Lemma sm_scal : forall (f : nat -> R) c, Sm (fun a => c * f a) = c * Sm f. Proof. intros. apply total_scal. Qed.
Lemma sm_zero : Sm (fun _ => 0) = 0. Proof. rewrite total_const. lra. Qed.
Lemma sm_const : forall c, Sm (fun _ => c) = INR n * c. Proof. intros c. rewrite total_const, seq_length. reflexivity. Qed.
Lemma sm_nonneg : forall f, (forall a, (a < n)%nat -> 0 <= f a) -> 0 <= Sm f.
Proof. intros f H. rewrite <- sm_zero. now apply sm_le. Qed.
Lemma pick_eq : forall f a, (a < n)%nat -> Sm (fun c => if Nat.eq_dec c a then f c else 0) = f a.
Proof. intros f a Ha. rewrite (@total_pick (fun c => if Nat.eq_dec c a then f c else 0) n a Ha); [destruct (Nat.eq_dec a a); congruence|]. intros k Hk. destruct (Nat.eq_dec k a); congruence. Qed.
Lemma sm_in : forall f a, (forall c, (c < n)%nat -> 0 <= f c) -> (a < n)%nat -> f a <= Sm f.
Proof. intros f a H Ha. rewrite <- (pick_eq f a Ha) at 1. apply sm_le. intros c Hc. destruct (Nat.eq_dec c a); [lra|auto]. Qed.

Definition sumx (x : nat -> R) : R := Sm (fun c => exp (x c)).
Definition soft (x : nat -> R) (a : nat) : R := exp (x a) / sumx x.
Lemma sumx_pos : forall x, 0 < sumx x.
Proof. intros x. unfold sumx. eapply Rlt_le_trans; [apply (exp_pos (x 0%nat))|]. apply (@sm_in (fun c => exp (x c)) 0%nat); [|lia]. intros c _. apply Rlt_le, exp_pos. Qed.
Lemma soft_pos : forall x a, 0 < soft x a.
Proof. intros x a. unfold soft, Rdiv. apply Rmult_lt_0_compat; [apply exp_pos|]. apply Rinv_0_lt_compat, sumx_pos. Qed.
Lemma soft_one : forall x, Sm (soft x) = 1.
Proof.
  intros x. unfold soft, Rdiv. rewrite (@sm_ext (fun a => exp (x a) * / sumx x) (fun a => / sumx x * exp (x a))) by (intros; lra). rewrite sm_scal. fold (sumx x). apply Rinv_l. pose proof (sumx_pos x). lra.
Qed.
Lemma soft_le1 : forall x a, (a < n)%nat -> soft x a <= 1.
Proof. intros x a Ha. rewrite <- (soft_one x). apply sm_in; auto. intros c _. apply Rlt_le, soft_pos. Qed.
Lemma soft_ratio : forall x a b, soft x b = exp (x b - x a) * soft x a.
Proof. intros x a b. unfold soft. replace (x b) with ((x b - x a) + x a) at 1 by lra. rewrite exp_plus. unfold Rdiv. lra. Qed.
Lemma soft_mean_close : forall x f g e, (forall a, (a < n)%nat -> Rabs (f a - g a) <= e) -> Rabs (Sm (fun a => soft x a * f a) - Sm (fun a => soft x a * g a)) <= e.
Proof.
  intros x f g e H. assert (E : e = Sm (fun a => e * soft x a)) by (rewrite sm_scal, soft_one; lra). apply Rabs_le. rewrite <- sm_minus. split.
  - rewrite E at 1. replace (- Sm (fun a => e * soft x a)) with (-1 * Sm (fun a => e * soft x a)) by lra. rewrite <- sm_scal. apply sm_le. intros a Ha. specialize (H a Ha). pose proof (soft_pos x a) as P. assert (- e <= f a - g a) by (unfold Rabs in H; destruct (Rcase_abs _); lra). nra.
  - rewrite E at 1. apply sm_le. intros a Ha. specialize (H a Ha). pose proof (soft_pos x a) as P. assert (f a - g a <= e) by (unfold Rabs in H; destruct (Rcase_abs _); lra). nra.
Qed.

(** The advantages under the values f. *)
Definition adv (x f : nat -> R) (a : nat) : R := f a - Sm (fun c => soft x c * f c).
Lemma adv_mean : forall x f, Sm (fun a => soft x a * adv x f a) = 0.
Proof.
  intros x f. unfold adv. set (J := Sm (fun c => soft x c * f c)). rewrite (@sm_ext _ (fun a => soft x a * f a - J * soft x a)) by (intros; lra). rewrite sm_minus, sm_scal, soft_one. fold J. lra.
Qed.
(** A step with the advantages under f raises the mean of q, up to twice the distance of f and q. *)
Lemma exp_sign : forall c y, 0 <= c -> 0 <= (exp (c * y) - 1) * y.
Proof.
  intros c y Hc. destruct (Rle_lt_dec 0 y) as [Hy|Hy].
  - apply Rmult_le_pos; auto. pose proof (exp_ineq1_le (c * y)). assert (0 <= c * y) by now apply Rmult_le_pos. lra.
  - replace ((exp (c * y) - 1) * y) with ((1 - exp (c * y)) * - y) by lra. apply Rmult_le_pos; [|lra]. assert (c * y <= 0) by nra. assert (exp (c * y) <= exp 0) by (destruct (Rle_lt_or_eq_dec _ _ H) as [L| ->]; [apply Rlt_le; now apply exp_increasing|lra]). rewrite exp_0 in H0. lra.
Qed.
Lemma step_up : forall x x' f q eta e, 0 <= eta -> (forall a, (a < n)%nat -> x' a = x a + eta * (soft x a * adv x f a)) -> (forall a, (a < n)%nat -> Rabs (f a - q a) <= e) ->
  Sm (fun a => soft x a * q a) - 2 * e <= Sm (fun a => soft x' a * q a).
Proof.
  intros x x' f q eta e He Hx Hf. set (J := Sm (fun a => soft x a * q a)). set (w := fun a => exp (eta * soft x a * adv x f a)).
  assert (Z : sumx x' = sumx x * Sm (fun a => soft x a * w a)).
  { rewrite <- sm_scal. unfold sumx at 1. apply sm_ext. intros a Ha. rewrite (Hx a Ha), exp_plus. unfold w, soft. replace (eta * (exp (x a) / sumx x * adv x f a)) with (eta * (exp (x a) / sumx x) * adv x f a) by lra. field. pose proof (sumx_pos x). lra. }
  assert (WP : forall a, 0 < w a) by (intros; apply exp_pos). set (D := Sm (fun a => soft x a * w a)). assert (DP : 0 < D).
  { pose proof (sumx_pos x'). pose proof (sumx_pos x). rewrite Z in H. fold D in H. destruct (Rle_lt_dec D 0); auto. nra. }
  assert (S' : forall a, (a < n)%nat -> soft x' a = soft x a * w a / D).
  { intros a Ha. unfold soft at 1. rewrite Z. fold D. rewrite (Hx a Ha), exp_plus. unfold w, soft. replace (eta * (exp (x a) / sumx x * adv x f a)) with (eta * (exp (x a) / sumx x) * adv x f a) by lra. field. pose proof (sumx_pos x). lra. }
  assert (E : Sm (fun a => soft x' a * q a) - J = Sm (fun a => soft x a * w a * (q a - J)) / D).
  { rewrite (@sm_ext (fun a => soft x' a * q a) (fun a => / D * (soft x a * w a * q a))) by (intros a Ha; rewrite (S' a Ha); unfold Rdiv; lra). rewrite sm_scal.
    rewrite (@sm_ext (fun a => soft x a * w a * (q a - J)) (fun a => soft x a * w a * q a - J * (soft x a * w a))) by (intros; lra). rewrite sm_minus, sm_scal. fold D. field. lra. }
  assert (C : forall a, (a < n)%nat -> adv x f a - 2 * e <= q a - J).
  { intros a Ha. unfold adv. pose proof (@soft_mean_close x f q e Hf) as M. fold J in M. specialize (Hf a Ha). unfold Rabs in *. destruct (Rcase_abs (f a - q a)), (Rcase_abs (Sm (fun a => soft x a * f a) - J)); lra. }
  assert (K : - 2 * e * D <= Sm (fun a => soft x a * w a * (q a - J))).
  { apply Rle_trans with (Sm (fun a => soft x a * adv x f a + - 2 * e * (soft x a * w a))).
    - rewrite sm_plus, adv_mean, sm_scal. fold D. lra.
    - apply sm_le. intros a Ha. specialize (C a Ha). pose proof (soft_pos x a) as P. specialize (WP a). pose proof (@exp_sign (eta * soft x a) (adv x f a) ltac:(apply Rmult_le_pos; lra)) as Q. fold (w a) in Q. assert (0 <= soft x a * w a) by (apply Rmult_le_pos; lra).
      assert (soft x a * w a * (adv x f a - 2 * e) <= soft x a * w a * (q a - J)) by (apply Rmult_le_compat_l; lra). assert (0 <= soft x a * ((w a - 1) * adv x f a)) by (apply Rmult_le_pos; lra). lra. }
  assert (- 2 * e <= Sm (fun a => soft x a * w a * (q a - J)) / D).
  { apply (Rmult_le_reg_r D); auto. set (V := Sm (fun a => soft x a * w a * (q a - J))) in *. replace (V / D * D) with V by (field; lra). lra. }
  lra.
Qed.

(** * Many steps *)

Variable x : nat -> nat -> R.
Variable eta : nat -> R.
Variable f : nat -> nat -> R.
Variable q : nat -> R.
Variables ep T : nat -> R.
Variable hi : R.
Hypothesis STEP : forall t a, (a < n)%nat -> x (S t) a = x t a + eta t * (soft (x t) a * adv (x t) (f t) a).
Hypothesis ETA : forall t, 0 <= eta t <= hi.
Hypothesis FAR : forall B, exists N, B <= ps eta N.
Hypothesis CLOSE : forall t a, (a < n)%nat -> Rabs (f t a - q a) <= ep t.
Hypothesis TAIL : forall t, ep t + T (S t) <= T t.
Hypothesis TPOS : forall t, 0 <= T t.
Hypothesis TSUM : bdd T.
Notation m t a := (soft (x t) a).
Definition J (t : nat) : R := Sm (fun a => m t a * q a).
Lemma ep_pos : forall t, 0 <= ep t.
Proof. intros t. eapply Rle_trans; [apply Rabs_pos|]. apply (CLOSE t 0%nat). lia. Qed.
Lemma ep_T : forall t, ep t <= T t. Proof. intros t. pose proof (TAIL t). pose proof (TPOS (S t)). lra. Qed.
Lemma T_small : forall e, 0 < e -> exists N, forall t, (N <= t)%nat -> T t <= e.
Proof. apply falling_small; auto. intros t. pose proof (TAIL t). pose proof (ep_pos t). lra. Qed.
Lemma J_step : forall t, J t - 2 * ep t <= J (S t).
Proof. intros t. unfold J. apply (@step_up (x t) (x (S t)) (f t) q (eta t) (ep t)); auto. apply ETA. Qed.
Definition top : R := Sm (fun a => Rabs (q a)).
Lemma J_top : forall t, J t <= top.
Proof. intros t. apply sm_le. intros a Ha. pose proof (soft_pos (x t) a). pose proof (@soft_le1 (x t) a Ha). pose proof (Rle_abs (q a)). pose proof (Rabs_pos (q a)). nra. Qed.
Lemma J_limit : exists L, (forall t, J t <= L + 2 * T t) /\ forall e, 0 < e -> exists N, forall t, (N <= t)%nat -> L - e <= J t.
Proof.
  set (K := fun t => J t - 2 * T t). assert (G : Un_growing K) by (intros t; unfold K; pose proof (J_step t); pose proof (TAIL t); lra).
  assert (U : has_ub K). { exists top. intros y (t & ->). unfold K. pose proof (J_top t). pose proof (TPOS t). lra. }
  destruct (growing_cv K G U) as (L & HL). exists L. split.
  - intros t. pose proof (growing_ineq K L G HL t). unfold K in H. lra.
  - intros e He. destruct (HL e He) as (N & HN). exists N. intros t Ht. specialize (HN t ltac:(lia)). unfold R_dist, K in HN. pose proof (TPOS t). unfold Rabs in HN. destruct (Rcase_abs _); lra.
Qed.

Section Stuck.
Variable L : R.
Hypothesis UP : forall t, J t <= L + 2 * T t.
Hypothesis LIM : forall e, 0 < e -> exists N, forall t, (N <= t)%nat -> L - e <= J t.
Variable best : nat.
Hypothesis HB : (best < n)%nat.
Hypothesis STUCK : L < q best.
Definition w (t : nat) : R := Sm (fun a => m t a * Rmax 0 (L - q a)).
Definition h (t : nat) : R := Sm (fun a => m t a * Rmax 0 (q a - L)).
Lemma J_split : forall t, J t - L = h t - w t.
Proof.
  intros t. unfold J, h, w. rewrite <- sm_minus. replace L with (L * Sm (soft (x t))) at 1 by (rewrite soft_one; lra). rewrite <- sm_scal, <- sm_minus. apply sm_ext. intros a Ha. unfold Rmax. destruct (Rle_dec 0 (q a - L)), (Rle_dec 0 (L - q a)); [assert (E : q a = L) by lra; rewrite E; lra|lra|lra|exfalso; lra].
Qed.
Lemma h_w : forall t, h t <= w t + 2 * T t. Proof. intros t. pose proof (J_split t). pose proof (UP t). lra. Qed.
Lemma w_pos : forall t, 0 <= w t. Proof. intros t. apply sm_nonneg. intros a Ha. apply Rmult_le_pos; [apply Rlt_le, soft_pos|apply Rmax_l]. Qed.
Lemma h_in : forall t a, (a < n)%nat -> m t a * Rmax 0 (q a - L) <= h t.
Proof. intros t a Ha. apply (@sm_in (fun a => m t a * Rmax 0 (q a - L))); auto. intros c _. apply Rmult_le_pos; [apply Rlt_le, soft_pos|apply Rmax_l]. Qed.
Definition g : R := q best - L.
Lemma g_pos : 0 < g. Proof. unfold g. lra. Qed.
Lemma best_h : forall t, g * m t best <= h t.
Proof. intros t. pose proof (@h_in t best HB). rewrite Rmax_right in H by lra. unfold g. lra. Qed.
Lemma adv_close : forall t a, (a < n)%nat -> Rabs (adv (x t) (f t) a - (q a - J t)) <= 2 * ep t.
Proof.
  intros t a Ha. unfold adv. pose proof (@soft_mean_close (x t) (f t) q (ep t) (CLOSE t)) as M. fold (J t) in M. pose proof (CLOSE t a Ha) as C. unfold Rabs in *. destruct (Rcase_abs (f t a - q a)), (Rcase_abs (Sm (fun a => m t a * f t a) - J t)), (Rcase_abs (f t a - Sm (fun c => m t c * f t c) - (q a - J t))); lra.
Qed.
Lemma near : forall e, 0 < e -> exists N, forall t, (N <= t)%nat -> forall a, (a < n)%nat -> Rabs (adv (x t) (f t) a - (q a - L)) <= e.
Proof.
  intros e He. destruct (LIM (e / 2) ltac:(lra)) as (N1' & H1). destruct (T_small (e / 4) ltac:(lra)) as (N2 & H2). exists (Nat.max N1' N2). intros t Ht a Ha. specialize (H1 t ltac:(lia)). specialize (H2 t ltac:(lia)). pose proof (adv_close t a Ha) as C. pose proof (UP t). pose proof (ep_T t).
  unfold Rabs in *. destruct (Rcase_abs _), (Rcase_abs _); lra.
Qed.
(** The logit of the best action rises in the end. *)
Lemma best_rises : exists N, forall t, (N <= t)%nat -> x t best <= x (S t) best.
Proof.
  destruct (near (g / 2) ltac:(pose proof g_pos; lra)) as (N & H). exists N. intros t Ht. specialize (H t Ht best HB). rewrite (STEP t best HB). destruct (ETA t) as [E _]. pose proof (soft_pos (x t) best). fold g in H.
  assert (0 <= adv (x t) (f t) best) by (pose proof g_pos; unfold Rabs in H; destruct (Rcase_abs _); lra). assert (0 <= eta t * (m t best * adv (x t) (f t) best)) by (apply Rmult_le_pos; auto; apply Rmult_le_pos; lra). lra.
Qed.
Lemma best_above : exists N, forall t, (N <= t)%nat -> x N best <= x t best.
Proof. destruct best_rises as (N & H). exists N. intros t Ht. induction Ht as [|t Ht IH]; [lra|]. specialize (H t Ht). lra. Qed.
Lemma eta_m : forall t a, 0 <= eta t * m t a. Proof. intros t a. destruct (ETA t) as [E _]. apply Rmult_le_pos; auto. apply Rlt_le, soft_pos. Qed.
(** A bad action is drawn finitely often, or becomes much rarer than the best one. *)
Lemma bad : forall b, (b < n)%nat -> q b < L -> bdd (fun t => eta t * m t b) \/ forall k, 0 < k -> exists N, forall t, (N <= t)%nat -> m t b <= k * m t best.
Proof.
  intros b Hb Hq. destruct (classic (bdd (fun t => eta t * m t b))) as [Hbd|NB]; [now left|right]. intros k Hk. set (d := (L - q b) / 2). assert (Hd : 0 < d) by (unfold d; lra).
  destruct (near d Hd) as (N0 & H0). destruct best_above as (N2 & H2). set (N3 := Nat.max N0 N2).
  assert (F : forall t, (N3 <= t)%nat -> x t b <= x N3 b - d * (ps (fun t => eta t * m t b) t - ps (fun t => eta t * m t b) N3)).
  { intros t Ht. induction Ht as [|t Ht IH]; [lra|]. rewrite (STEP t b Hb). cbn [ps]. specialize (H0 t ltac:(lia) b Hb). pose proof (eta_m t b) as E. assert (adv (x t) (f t) b <= - d) by (unfold d in *; unfold Rabs in H0; destruct (Rcase_abs _); lra).
    assert (eta t * m t b * adv (x t) (f t) b <= eta t * m t b * - d) by (apply Rmult_le_compat_l; auto). lra. }
  set (u := fun t => eta t * m t b) in *. destruct (unbdd u NB ((x N3 b - x N2 best - ln k) / d + ps u N3)) as (N4 & H4). exists (Nat.max N3 N4). intros t Ht. rewrite (soft_ratio (x t) best b). apply Rmult_le_compat_r; [apply Rlt_le, soft_pos|].
  rewrite <- (exp_ln k Hk). assert (x t b - x t best <= ln k).
  { specialize (F t ltac:(lia)). specialize (H2 t ltac:(lia)). pose proof (@ps_mono u N4 t ltac:(intros; apply eta_m) ltac:(lia)). assert ((x N3 b - x N2 best - ln k) / d < ps u t - ps u N3) by lra. apply (Rmult_lt_compat_r d) in H1; auto. unfold Rdiv in H1. rewrite Rmult_assoc, Rinv_l in H1 by lra. lra. }
  destruct (Rle_lt_or_eq_dec _ _ H) as [Q|Q]; [apply Rlt_le; now apply exp_increasing|rewrite Q; lra].
Qed.
Lemma some_bound : forall k, (k <= n)%nat -> exists v N, (forall t, 0 <= v t) /\ bdd (fun t => eta t * v t) /\
  forall t, (N <= t)%nat -> total (map (fun a => m t a * Rmax 0 (L - q a)) (seq 0 k)) <= v t + INR k * (g / (2 * INR n)) * m t best.
Proof.
  induction k as [|k IH]; intros Hk.
  - exists (fun _ => 0), 0%nat. split; [intros; lra|]. split; [|intros; cbn; lra]. apply (bdd_le _ (fun _ => 0)); [intros; lra|apply bdd_zero].
  - destruct (IH ltac:(lia)) as (v & N & V1 & V2 & V3). assert (NP : 0 < INR n) by (apply lt_0_INR; lia). assert (C : 0 < g / (2 * INR n)) by (apply Rdiv_lt_0_compat; [apply g_pos|lra]).
    destruct (Rlt_le_dec (q k) L) as [Q|Q].
    + destruct (bad k ltac:(lia) Q) as [B|B].
      * exists (fun t => v t + (L - q k) * m t k), N. split; [|split].
        -- intros t. specialize (V1 t). pose proof (soft_pos (x t) k). assert (0 <= (L - q k) * m t k) by (apply Rmult_le_pos; lra). lra.
        -- apply (bdd_le _ (fun t => eta t * v t + (L - q k) * (eta t * m t k))); [intros; lra|]. apply bdd_plus; auto. apply bdd_scal; auto. lra.
        -- intros t Ht. specialize (V3 t Ht). rewrite seq_S, map_app, UtilsProofs2.total_app. cbn [map Nat.add]. rewrite total_cons. change (total []) with 0. rewrite Rmax_right by lra. rewrite S_INR. pose proof (soft_pos (x t) best). assert (0 <= g / (2 * INR n) * m t best) by (apply Rmult_le_pos; lra). lra.
      * destruct (B (g / (2 * INR n) / (L - q k)) ltac:(apply Rdiv_lt_0_compat; lra)) as (N' & HN'). exists v, (Nat.max N N'). split; auto. split; auto. intros t Ht. specialize (V3 t ltac:(lia)). specialize (HN' t ltac:(lia)).
        rewrite seq_S, map_app, UtilsProofs2.total_app. cbn [map Nat.add]. rewrite total_cons. change (total []) with 0. rewrite Rmax_right by lra. rewrite S_INR.
        assert (m t k * (L - q k) <= g / (2 * INR n) * m t best). { apply (Rmult_le_compat_r (L - q k)) in HN'; [|lra]. replace (g / (2 * INR n) / (L - q k) * m t best * (L - q k)) with (g / (2 * INR n) * m t best) in HN' by (field; lra). lra. }
        lra.
    + exists v, N. split; auto. split; auto. intros t Ht. specialize (V3 t Ht). rewrite seq_S, map_app, UtilsProofs2.total_app. cbn [map Nat.add]. rewrite total_cons. change (total []) with 0. rewrite Rmax_left by lra. rewrite S_INR. pose proof (soft_pos (x t) best). assert (0 <= g / (2 * INR n) * m t best) by (apply Rmult_le_pos; lra). lra.
Qed.
Lemma eta_T : bdd (fun t => eta t * T t).
Proof. apply (bdd_le _ (fun t => Rmax 0 hi * T t)); [|apply bdd_scal; auto; apply Rmax_l]. intros t. apply Rmult_le_compat_r; auto. destruct (ETA t). eapply Rle_trans; [eassumption|apply Rmax_r]. Qed.
Lemma summable : bdd (fun t => eta t * m t best) /\ bdd (fun t => eta t * w t).
Proof.
  destruct (some_bound n ltac:(lia)) as (v & N & V1 & V2 & V3). assert (NP : 0 < INR n) by (apply lt_0_INR; lia). pose proof g_pos as GP.
  assert (W : forall t, (N <= t)%nat -> w t <= v t + g / 2 * m t best). { intros t Ht. specialize (V3 t Ht). fold (w t) in V3. replace (INR n * (g / (2 * INR n))) with (g / 2) in V3 by (field; lra). exact V3. }
  assert (B : bdd (fun t => eta t * m t best)).
  { apply (bdd_late _ (fun t => 2 / g * (eta t * v t) + 4 / g * (eta t * T t)) N).
    - intros t. apply eta_m.
    - intros t. destruct (ETA t) as [E _]. specialize (V1 t). specialize (TPOS t). assert (0 <= 2 / g) by (apply Rlt_le, Rdiv_lt_0_compat; lra). assert (0 <= 4 / g) by (apply Rlt_le, Rdiv_lt_0_compat; lra). assert (0 <= eta t * v t) by (now apply Rmult_le_pos). assert (0 <= eta t * T t) by (now apply Rmult_le_pos). assert (0 <= 2 / g * (eta t * v t)) by (now apply Rmult_le_pos). assert (0 <= 4 / g * (eta t * T t)) by (now apply Rmult_le_pos). lra.
    - intros t Ht. specialize (W t Ht). pose proof (best_h t). pose proof (h_w t). destruct (ETA t) as [E _]. replace (2 / g * (eta t * v t) + 4 / g * (eta t * T t)) with (eta t * (2 / g * v t + 4 / g * T t)) by lra. apply Rmult_le_compat_l; auto. apply (Rmult_le_reg_l (g / 2)); [lra|]. replace (g / 2 * (2 / g * v t + 4 / g * T t)) with (v t + 2 * T t) by (field; lra). lra.
    - apply bdd_plus; apply bdd_scal; auto using eta_T; apply Rlt_le, Rdiv_lt_0_compat; lra. }
  split; auto. apply (bdd_late _ (fun t => eta t * v t + g / 2 * (eta t * m t best)) N).
  - intros t. destruct (ETA t). apply Rmult_le_pos; auto using w_pos.
  - intros t. destruct (ETA t) as [E _]. specialize (V1 t). assert (0 <= eta t * v t) by (now apply Rmult_le_pos). pose proof (eta_m t best). assert (0 <= g / 2 * (eta t * m t best)) by (apply Rmult_le_pos; lra). lra.
  - intros t Ht. specialize (W t Ht). destruct (ETA t) as [E _]. apply (Rmult_le_compat_l (eta t)) in W; auto. lra.
  - apply bdd_plus; auto. apply bdd_scal; auto. lra.
Qed.
Lemma logit_bound : forall a, (a < n)%nat -> exists U, forall t, x t a <= U.
Proof.
  intros a Ha. destruct summable as [_ B]. assert (D : bdd (fun t => 2 * (eta t * w t) + 4 * (eta t * T t))) by (apply bdd_plus; apply bdd_scal; auto using eta_T; lra). destruct D as (C & HC). exists (x 0%nat a + C). intros t. specialize (HC t).
  enough (x t a <= x 0%nat a + ps (fun t => 2 * (eta t * w t) + 4 * (eta t * T t)) t) by lra. clear HC. induction t as [|t IH]; [cbn; lra|]. rewrite (STEP t a Ha). cbn [ps]. destruct (ETA t) as [E _].
  assert (m t a * adv (x t) (f t) a <= 2 * w t + 4 * T t).
  { pose proof (adv_close t a Ha) as A. pose proof (J_split t). pose proof (h_w t). pose proof (@h_in t a Ha). pose proof (ep_T t). pose proof (soft_pos (x t) a) as P. pose proof (@soft_le1 (x t) a Ha) as P1. pose proof (w_pos t). pose proof (TPOS t). pose proof (ep_pos t).
    assert (A2 : adv (x t) (f t) a <= Rmax 0 (q a - L) + (w t + 2 * ep t)). { pose proof (Rmax_r 0 (q a - L)). assert (0 <= h t) by (eapply Rle_trans; [|apply (@h_in t a Ha)]; apply Rmult_le_pos; [lra|apply Rmax_l]). unfold Rabs in A. destruct (Rcase_abs _); lra. }
    apply Rle_trans with (m t a * (Rmax 0 (q a - L) + (w t + 2 * ep t))); [apply Rmult_le_compat_l; lra|]. rewrite Rmult_plus_distr_l. assert (m t a * (w t + 2 * ep t) <= 1 * (w t + 2 * ep t)) by (apply Rmult_le_compat_r; lra). lra. }
  apply (Rmult_le_compat_l (eta t)) in H; auto. lra.
Qed.
Lemma all_bound : exists U, forall a, (a < n)%nat -> forall t, x t a <= U.
Proof.
  assert (A : forall k, (k <= n)%nat -> exists U, forall a, (a < k)%nat -> forall t, x t a <= U).
  { induction k as [|k IH]; intros Hk; [exists 0; intros; lia|]. destruct (IH ltac:(lia)) as (U & HU). destruct (logit_bound k ltac:(lia)) as (V & HV). exists (Rmax U V). intros a Ha t. destruct (Nat.eq_dec a k) as [->|D]; [eapply Rle_trans; [apply HV|apply Rmax_r]|eapply Rle_trans; [apply HU; lia|apply Rmax_l]]. }
  exact (A n ltac:(lia)).
Qed.
Lemma exp_le : forall a b, a <= b -> exp a <= exp b.
Proof. intros a b H. destruct (Rle_lt_or_eq_dec _ _ H) as [L'| ->]; [apply Rlt_le; now apply exp_increasing|lra]. Qed.
Lemma not_stuck : False.
Proof.
  destruct all_bound as (U & HU). destruct best_above as (N & HN). destruct summable as [B _]. set (c := exp (x N best) / (INR n * exp U)). assert (NP : 0 < INR n) by (apply lt_0_INR; lia). assert (CP : 0 < c) by (apply Rdiv_lt_0_compat; [apply exp_pos|apply Rmult_lt_0_compat; auto; apply exp_pos]).
  assert (M : forall t, (N <= t)%nat -> c <= m t best).
  { intros t Ht. unfold c, soft. assert (SU : sumx (x t) <= INR n * exp U) by (rewrite <- sm_const; apply sm_le; intros a Ha; apply exp_le; auto). pose proof (sumx_pos (x t)). apply Rmult_le_compat; [apply Rlt_le, exp_pos|apply Rlt_le, Rinv_0_lt_compat, Rmult_lt_0_compat; auto; apply exp_pos|now apply exp_le, HN|]. now apply Rinv_le_contravar. }
  assert (BE : bdd eta).
  { apply (bdd_late _ (fun t => / c * (eta t * m t best)) N).
    - intros t. apply ETA.
    - intros t. apply Rmult_le_pos; [apply Rlt_le, Rinv_0_lt_compat; auto|apply eta_m].
    - intros t Ht. specialize (M t Ht). destruct (ETA t) as [E _]. apply (Rmult_le_reg_l c); auto. rewrite <- Rmult_assoc, Rinv_r by lra. nra.
    - apply bdd_scal; auto. apply Rlt_le, Rinv_0_lt_compat; auto. }
  destruct BE as (C & HC). destruct (FAR (C + 1)) as (K & HK). specialize (HC K). lra.
Qed.
End Stuck.

(** In the end the mean is as large as the best value. *)
Theorem ascent : forall e, 0 < e -> exists N, forall t, (N <= t)%nat -> forall a, (a < n)%nat -> q a - e <= Sm (fun c => soft (x t) c * q c).
Proof.
  intros e He. destruct J_limit as (L & UP & LIM). destruct (LIM e He) as (N & HN). exists N. intros t Ht a Ha. specialize (HN t Ht). fold (J t). destruct (Rle_lt_dec (q a) L) as [Q|Q]; [lra|]. exfalso. exact (not_stuck L UP LIM a Ha Q).
Qed.
End Softmax.
