(** Gradient descent on the cross-entropy of a softmax converges to the target distribution. *)
From Coq Require Import List ZArith Lia Bool Arith Reals Lra.
From Verif Require Import PyCommon UtilsModel UtilsSpec UtilsProofs2 UtilsProofs3 DistModel DistSpec DistProofs DistProofs2 LossProofs DpgProofs.
Import ListNotations.
Set Implicit Arguments.
Local Open Scope R_scope.

Lemma exp_quadratic : forall d, d <= 1 -> exp d <= 1 + d + d * d.
Proof.
  intros d Hd. pose (f := fun x => (1 + x + x * x) * exp (- x)). pose (f' := fun x => exp (- x) * (x * (1 - x))).
  assert (D : forall x, derivable_pt_lim f x (f' x)).
  { intros x. unfold f, f'. replace (exp (- x) * (x * (1 - x))) with ((0 + 1 + (1 * x + x * 1)) * exp (- x) + (1 + x + x * x) * (exp (- x) * - 1)) by ring.
    apply (derivable_pt_lim_mult (fun x => 1 + x + x * x) (fun x => exp (- x))).
    - apply (derivable_pt_lim_plus (fun x => 1 + x) (fun x => x * x)); [apply (derivable_pt_lim_plus (fun _ => 1) (fun x => x)); [apply derivable_pt_lim_const|apply derivable_pt_lim_id]|apply (derivable_pt_lim_mult (fun x => x) (fun x => x)); apply derivable_pt_lim_id].
    - apply (derivable_pt_lim_comp (fun x => - x) exp); [|apply derivable_pt_lim_exp]. apply (derivable_pt_lim_opp (fun x => x)). apply derivable_pt_lim_id. }
  assert (M : 1 <= f d).
  { assert (F0 : f 0 = 1) by (unfold f; rewrite Ropp_0, exp_0; ring). rewrite <- F0. destruct (Rtotal_order d 0) as [L|[E|G]]; [|rewrite E; lra|].
    - destruct (MVT_cor2 f f' d 0 L (fun c _ => D c)) as (c & E & Hc). unfold f' in E. assert (exp (- c) * (c * (1 - c)) <= 0) by (assert (c * (1 - c) <= 0) by nra; pose proof (exp_pos (- c)); nra). nra.
    - destruct (MVT_cor2 f f' 0 d G (fun c _ => D c)) as (c & E & Hc). unfold f' in E. assert (0 <= exp (- c) * (c * (1 - c))) by (apply Rmult_le_pos; [left; apply exp_pos|nra]). nra. }
  unfold f in M. rewrite exp_Ropp in M. pose proof (exp_pos d) as P. apply (Rmult_le_compat_r (exp d)) in M; [|lra]. rewrite Rmult_assoc, Rinv_l in M by lra. lra.
Qed.
Lemma ln_le_minus : forall x, 0 < x -> ln x <= x - 1.
Proof. intros x H. destruct (Req_dec x 1) as [->|N]; [rewrite ln_1; lra|]. assert (1 + ln x < exp (ln x)). { apply exp_ineq1. intros C. apply N. rewrite <- (exp_ln x H), C. apply exp_0. } rewrite exp_ln in H0 by auto. lra. Qed.

Lemma INR_exists : forall x, exists N, x < INR N.
Proof. intros x. destruct (archimed (Rmax x 0)) as [A _]. exists (Z.to_nat (up (Rmax x 0))). pose proof (Rmax_l x 0). pose proof (Rmax_r x 0). assert (0 <= up (Rmax x 0))%Z by (apply le_IZR; lra). rewrite INR_IZR_INZ, Z2Nat.id by auto. lra. Qed.

Section Soft.
Variable n : nat.
Hypothesis Hn : (1 <= n)%nat.
Notation Sm f := (total (map f (seq 0 n))).
Notation soft := (soft n).
Variable t : nat -> R.
Hypothesis T0 : forall k, (k < n)%nat -> 0 < t k.
Hypothesis T1 : Sm t = 1.
(** KL divergence of the target and the softmax. *)
Definition kl (x : nat -> R) : R := Sm (fun k => t k * (ln (t k) - ln (soft x k))).
Lemma ln_soft : forall x k, ln (soft x k) = x k - ln (sumx n x).
Proof. intros x k. unfold DpgProofs.soft, Rdiv. rewrite ln_mult by (try apply exp_pos; apply Rinv_0_lt_compat, sumx_pos; auto). rewrite ln_exp, ln_Rinv by (apply sumx_pos; auto). ring. Qed.
Lemma kl_diff : forall x d, kl (fun k => x k + d k) - kl x = ln (Sm (fun k => soft x k * exp (d k))) - Sm (fun k => t k * d k).
Proof.
  intros x d. unfold kl. rewrite <- total_minus. rewrite (@total_ext _ _ (fun k => t k * (ln (sumx n (fun k => x k + d k)) - ln (sumx n x)) - t k * d k)) by (intros k _; rewrite !ln_soft; ring).
  rewrite total_minus. f_equal. rewrite (@total_ext _ _ (fun k => (ln (sumx n (fun k => x k + d k)) - ln (sumx n x)) * t k)) by (intros; ring). rewrite total_scal, T1, Rmult_1_r.
  assert (P := @sumx_pos n Hn x). assert (P' := @sumx_pos n Hn (fun k => x k + d k)).
  replace (Sm (fun k => soft x k * exp (d k))) with (sumx n (fun k => x k + d k) * / sumx n x); [rewrite ln_mult, ln_Rinv; auto; try ring; now apply Rinv_0_lt_compat|].
  unfold sumx at 1. rewrite Rmult_comm, <- total_scal. apply total_ext. intros k _. unfold DpgProofs.soft. rewrite exp_plus. unfold Rdiv. ring.
Qed.
Definition err2 (x : nat -> R) : R := Sm (fun k => (t k - soft x k) * (t k - soft x k)).
Lemma t_le1 : forall k, (k < n)%nat -> t k <= 1.
Proof. intros k Hk. rewrite <- T1. apply (@sm_in n Hn t k); auto. intros c Hc. left. now apply T0. Qed.
Lemma descent : forall x x' be, 0 <= be <= 1 -> (forall k, (k < n)%nat -> x' k = x k + be * (t k - soft x k)) -> kl x' <= kl x - be * (1 - be) * err2 x.
Proof.
  intros x x' be Hb H. assert (K : kl x' = kl (fun k => x k + be * (t k - soft x k))).
  { unfold kl. apply total_ext. intros k Hk. apply in_seq in Hk. rewrite !ln_soft, H by lia. do 4 f_equal. unfold sumx. apply total_ext. intros c Hc. apply in_seq in Hc. rewrite H by lia. reflexivity. }
  pose proof (kl_diff x (fun k => be * (t k - soft x k))) as KD. cbv beta in KD. rewrite <- K in KD.
  set (Z := Sm (fun k => soft x k * exp (be * (t k - soft x k)))) in *.
  assert (ZU : Z <= 1 + Sm (fun k => soft x k * (be * (t k - soft x k))) + be * be * err2 x).
  { unfold Z, err2. rewrite <- (@soft_one n Hn x) at 1. rewrite <- (total_scal _ (be * be)). rewrite <- !total_plus. apply total_le. intros k Hk. apply in_seq in Hk. assert (Hk' : (k < n)%nat) by lia. pose proof (@soft_pos n Hn x k) as S0. pose proof (@soft_le1 n Hn x k Hk') as S1. pose proof (T0 Hk'). pose proof (t_le1 Hk').
    assert (E := @exp_quadratic (be * (t k - soft x k)) ltac:(nra)). set (e := t k - soft x k) in *. assert (soft x k * exp (be * e) <= soft x k * (1 + be * e + be * e * (be * e))) by (apply Rmult_le_compat_l; lra). assert (0 <= (1 - soft x k) * (be * be * (e * e))) by (apply Rmult_le_pos; [lra|]; nra). nra. }
  assert (ZP : 0 < Z). { unfold Z. eapply Rlt_le_trans; [|apply (@sm_in n Hn (fun k => soft x k * exp (be * (t k - soft x k))) 0%nat); [|lia]]. - apply Rmult_lt_0_compat; [apply soft_pos; auto|apply exp_pos]. - intros c _. apply Rmult_le_pos; left; [apply soft_pos; auto|apply exp_pos]. }
  pose proof (ln_le_minus ZP) as L. assert (E : Sm (fun k => soft x k * (be * (t k - soft x k))) - Sm (fun k => t k * (be * (t k - soft x k))) = - be * err2 x). { unfold err2. rewrite <- total_minus, <- total_scal. apply total_ext. intros. ring. } lra.
Qed.
(** Squared differences from the divergence, and back. *)
Lemma kl_close : forall x k, (k < n)%nat -> (t k - soft x k) * (t k - soft x k) <= 4 * kl x.
Proof.
  intros x k Hk. assert (HE : Sm (fun k => (sqrt (t k) - sqrt (soft x k)) * (sqrt (t k) - sqrt (soft x k))) <= kl x).
  { apply Rle_trans with (Sm (fun k => (soft x k - t k) + t k * (ln (t k) - ln (soft x k)))); [|rewrite total_plus, total_minus, T1, soft_one by auto; fold (kl x); lra]. apply total_le. intros c Hc. apply in_seq in Hc. assert (Hc' : (c < n)%nat) by lia. pose proof (T0 Hc') as A. pose proof (@soft_pos n Hn x c) as B.
    set (p := soft x c) in *. set (u := sqrt (t c)). set (v := sqrt p). assert (U : u * u = t c) by (apply sqrt_sqrt; lra). assert (V : v * v = p) by (apply sqrt_sqrt; lra). assert (U0 : 0 < u) by now apply sqrt_lt_R0. assert (V0 : 0 < v) by now apply sqrt_lt_R0.
    assert (L : ln p - ln (t c) <= 2 * (v / u - 1)). { rewrite <- U, <- V. rewrite !ln_mult by auto. assert (X := @ln_le_minus (v / u) ltac:(apply Rdiv_lt_0_compat; auto)). unfold Rdiv in X at 1. rewrite ln_mult, ln_Rinv in X; auto; [lra|now apply Rinv_0_lt_compat]. }
    assert (Y : t c * (2 * (v / u - 1)) = 2 * (u * v) - 2 * t c) by (rewrite <- U; field; lra). assert (t c * (ln p - ln (t c)) <= t c * (2 * (v / u - 1))) by (apply Rmult_le_compat_l; lra). nra. }
  assert (X : (sqrt (t k) - sqrt (soft x k)) * (sqrt (t k) - sqrt (soft x k)) <= kl x). { eapply Rle_trans; [|exact HE]. apply (@sm_in n Hn (fun k => (sqrt (t k) - sqrt (soft x k)) * (sqrt (t k) - sqrt (soft x k)))); auto. intros c _. apply Rle_0_sqr. }
  pose proof (T0 Hk) as A. pose proof (@soft_pos n Hn x k) as B. pose proof (t_le1 Hk). pose proof (@soft_le1 n Hn x k Hk). set (p := soft x k) in *. set (u := sqrt (t k)) in *. set (v := sqrt p) in *. assert (U : u * u = t k) by (apply sqrt_sqrt; lra). assert (V : v * v = p) by (apply sqrt_sqrt; lra). assert (U0 : 0 < u) by now apply sqrt_lt_R0. assert (V0 : 0 < v) by now apply sqrt_lt_R0.
  assert (U1 : u <= 1) by nra. assert (V1 : v <= 1) by nra. rewrite <- U, <- V. replace ((u * u - v * v) * (u * u - v * v)) with (((u - v) * (u - v)) * ((u + v) * (u + v))) by ring. assert (0 <= (u - v) * (u - v)) by apply Rle_0_sqr. assert (0 <= (u + v) * (u + v) <= 4) by nra. nra.
Qed.
Lemma kl_nonneg : forall x, 0 <= kl x.
Proof. intros x. pose proof (@kl_close x 0%nat ltac:(lia)). pose proof (Rle_0_sqr (t 0%nat - soft x 0%nat)) as P. unfold Rsqr in P. lra. Qed.
Lemma kl_small : forall x m, 0 < m -> (forall k, (k < n)%nat -> m <= soft x k) -> kl x <= err2 x / m.
Proof.
  intros x m Hm H. apply Rle_trans with (Sm (fun k => (t k - soft x k) * (t k - soft x k) / soft x k + (t k - soft x k))).
  - unfold kl. apply total_le. intros k Hk. apply in_seq in Hk. assert (Hk' : (k < n)%nat) by lia. pose proof (T0 Hk') as A. pose proof (@soft_pos n Hn x k) as B. assert (X := @ln_le_minus (t k / soft x k) ltac:(apply Rdiv_lt_0_compat; auto)). unfold Rdiv in X at 1. rewrite ln_mult, ln_Rinv in X; auto; [|now apply Rinv_0_lt_compat].
    assert (Y : t k * (t k / soft x k - 1) = (t k - soft x k) * (t k - soft x k) / soft x k + (t k - soft x k)) by (field; lra). rewrite <- Y. apply Rmult_le_compat_l; lra.
  - rewrite total_plus, total_minus, T1, soft_one by auto. unfold err2, Rdiv. rewrite (Rmult_comm _ (/ m)), <- total_scal. match goal with |- ?a + _ <= ?b => assert (a <= b); [|lra] end. apply total_le. intros k Hk. apply in_seq in Hk. rewrite Rmult_comm. apply Rmult_le_compat_r; [apply Rle_0_sqr|]. apply Rinv_le_contravar; auto. apply H. lia.
Qed.
Lemma pos_min : forall N (f : nat -> R), (forall k, (k < N)%nat -> 0 < f k) -> exists m, 0 < m /\ forall k, (k < N)%nat -> m <= f k.
Proof.
  intros N f. induction N as [|N IH]; intros H; [exists 1; split; [lra|intros; lia]|]. destruct IH as (m & M0 & M); [intros; apply H; lia|]. exists (Rmin m (f N)). split; [apply Rmin_pos; auto|]. intros k Hk. destruct (Nat.eq_dec k N) as [->|]; [apply Rmin_r|]. eapply Rle_trans; [apply Rmin_l|]. apply M. lia.
Qed.
(** Repeated steps of a fixed size. *)
Theorem descends : forall (x : nat -> nat -> R) be, 0 < be < 1 -> (forall i k, (k < n)%nat -> x (S i) k = x i k + be * (t k - soft (x i) k)) -> forall kap, 0 < kap -> exists N, forall i, (N <= i)%nat -> forall k, (k < n)%nat -> Rabs (t k - soft (x i) k) <= kap.
Proof.
  intros x be Hb H kap Hk. destruct (@pos_min n t T0) as (m & M0 & M). set (c := be * (1 - be)). assert (C0 : 0 < c) by (unfold c; nra).
  assert (DE : forall i, kl (x (S i)) <= kl (x i) - c * err2 (x i)) by (intros i; apply descent; [lra|now apply H]).
  assert (E0 : forall i, 0 <= err2 (x i)) by (intros i; unfold err2; apply (@sm_nonneg n Hn); intros; apply Rle_0_sqr).
  set (de := Rmin (m / 2 * (m / 2)) (kap * kap * m / 8)). assert (D0 : 0 < de). { unfold de. apply Rmin_pos; [nra|]. assert (0 < kap * kap * m) by (apply Rmult_lt_0_compat; nra). lra. }
  assert (SMALL : exists i, err2 (x i) <= de).
  { assert (CD : 0 < c * de) by nra. destruct (INR_exists (kl (x 0%nat) / (c * de))) as [N HN]. assert (HN' : kl (x 0%nat) < INR N * (c * de)) by (apply (Rmult_lt_compat_r (c * de)) in HN; [unfold Rdiv in HN; rewrite Rmult_assoc, Rinv_l in HN; lra|lra]).
    assert (Y : (exists i, err2 (x i) <= de) \/ kl (x N) <= kl (x 0%nat) - INR N * (c * de)).
    { clear HN HN'. induction N as [|N [IH|IH]]; [right; cbn; lra|now left|]. destruct (Rle_dec (err2 (x N)) de) as [L|L]; [left; now exists N|]. right. specialize (DE N). rewrite S_INR. assert (c * de <= c * err2 (x N)) by (apply Rmult_le_compat_l; lra). lra. }
    destruct Y as [Y|Y]; auto. pose proof (kl_nonneg (x N)). lra. }
  destruct SMALL as [N HN]. exists N. assert (KN : kl (x N) <= kap * kap / 4).
  { assert (L : forall k, (k < n)%nat -> m / 2 <= soft (x N) k).
    { intros k Hk'. assert (X : (t k - soft (x N) k) * (t k - soft (x N) k) <= m / 2 * (m / 2)). { eapply Rle_trans; [|eapply Rle_trans; [exact HN|apply Rmin_l]]. apply (@sm_in n Hn (fun k => (t k - soft (x N) k) * (t k - soft (x N) k))); auto. intros a _. apply Rle_0_sqr. } pose proof (M k Hk'). assert (t k - soft (x N) k <= m / 2) by nra. lra. }
    eapply Rle_trans; [apply (@kl_small _ (m / 2)); [lra|exact L]|]. assert (HN' : err2 (x N) <= kap * kap * m / 8) by (eapply Rle_trans; [exact HN|apply Rmin_r]). apply (Rmult_le_reg_r (m / 2)); [lra|]. unfold Rdiv at 1. rewrite Rmult_assoc, Rinv_l by lra. lra. }
  intros i Hi k Hk'. assert (KI : kl (x i) <= kap * kap / 4). { induction Hi as [|i Hi IH]; auto. specialize (DE i). pose proof (E0 i). assert (0 <= c * err2 (x i)) by (apply Rmult_le_pos; lra). lra. }
  pose proof (@kl_close (x i) k Hk') as Q. apply Rabs_le. assert ((t k - soft (x i) k) * (t k - soft (x i) k) <= kap * kap) by lra. split; nra.
Qed.
End Soft.
