From Coq Require Import List Lia Bool Arith Reals Lra.
From Verif Require Import PyCommon CommonProofs UtilsModel UtilsSpec UtilsProofs2 UtilsProofs3 DistModel DistSpec DistProofs DistProofs2 LossModel LossSpec LossProofs QModel TDModel TDSpec TDProofs PolicyModel PolicySpec PolicyProofs PolicyProofs2 PolicyProofs3 PolicyProofs4 PolicyProofs5 PolicyProps.
From Verif Require Import MeanSpec MeanProofs GumbelProps LearnSpec LearnProofs5 PlayModel PlaySpec PlayProofs PlayProofs2.
Import ListNotations.
Set Implicit Arguments.
Local Open Scope R_scope.

Lemma total_mono : forall (f g : nat -> R) l, (forall a, In a l -> f a <= g a) -> total (map f l) <= total (map g l).
Proof. intros f g l. unfold total. induction l as [|a l IH]; intros H; cbn; [lra|]. assert (Z := IH (fun x J => H x (or_intror J))). specialize (H a (or_introl eq_refl)). lra. Qed.
Lemma total_scale : forall (f : nat -> R) c l, total (map (fun a => c * f a) l) = c * total (map f l).
Proof. intros f c l. unfold total. induction l as [|a l IH]; cbn; [ring|]. rewrite IH. ring. Qed.
Lemma total_add : forall (f g : nat -> R) l, total (map (fun a => f a + g a) l) = total (map f l) + total (map g l).
Proof. intros f g l. unfold total. induction l as [|a l IH]; cbn; [ring|]. rewrite IH. ring. Qed.
Lemma total_one : forall (c : R) (l : list nat), total (map (fun _ => c) l) = INR (length l) * c.
Proof. intros c l. unfold total. induction l as [|a l IH]; [cbn; ring|]. cbn [map fold_right length]. rewrite IH, S_INR. ring. Qed.
Lemma total_ext : forall (f g : nat -> R) l, (forall a, In a l -> f a = g a) -> total (map f l) = total (map g l).
Proof. intros f g l. unfold total. induction l as [|a l IH]; intros H; cbn; [auto|]. rewrite (IH (fun x J => H x (or_intror J))), (H a (or_introl eq_refl)). ring. Qed.

(** The entropy of n probabilities is at most ln n. *)
Lemma entropy_bound : forall n (p : nat -> R), (1 <= n)%nat -> (forall a, (a < n)%nat -> 0 < p a) -> total (map p (seq 0 n)) = 1 -> total (map (fun a => p a * - ln (p a)) (seq 0 n)) <= ln (INR n).
Proof.
  intros n p Hn P T1. assert (PN : 0 < INR n) by (apply lt_0_INR; lia).
  apply Rle_trans with (total (map (fun a => (/ INR n + - p a) + ln (INR n) * p a) (seq 0 n))).
  - apply total_mono. intros a I. apply in_seq in I. assert (Pa := P a ltac:(lia)). assert (Z := Rmult_lt_0_compat _ _ PN Pa). assert (X : ln (/ (INR n * p a)) <= / (INR n * p a) - 1).
    { assert (Y := exp_ineq1_le (ln (/ (INR n * p a)))). rewrite exp_ln in Y by (apply Rinv_0_lt_compat; lra). lra. }
    rewrite ln_Rinv, ln_mult in X by auto. apply (Rmult_le_compat_l (p a)) in X; [|lra]. replace (p a * (/ (INR n * p a) - 1)) with (/ INR n - p a) in X by (field; split; lra). lra.
  - rewrite total_add, total_add, total_scale, T1, total_one, seq_length. assert (Y : total (map (fun a => - p a) (seq 0 n)) = -1). { rewrite (total_ext (fun a => - p a) (fun a => -1 * p a)) by (intros; ring). rewrite total_scale, T1. ring. }
    rewrite Y. rewrite Rinv_r by lra. lra.
Qed.

(** Sampling from softmax(h / t) loses at most t * ln n. *)
Lemma boltzmann_loss : forall n t (h : nat -> R) m, (1 <= n)%nat -> 0 < t -> is_maximum n h m ->
  m - t * ln (INR n) <= total (map (fun a => exp (h a / t) / total (map (fun c => exp (h c / t)) (seq 0 n)) * h a) (seq 0 n)).
Proof.
  intros n t h m Hn Ht [(b & Hb & Eb) Hmax]. set (Z := total (map (fun c => exp (h c / t)) (seq 0 n))).
  assert (PZ : exp (m / t) <= Z). { rewrite <- Eb. unfold Z. assert (X := @total_in_le _ (fun c => exp (h c / t)) (seq 0 n) b). apply X; [intros; apply Rlt_le, exp_pos|apply in_seq; lia]. }
  assert (Z0 : 0 < Z) by (assert (X := exp_pos (m / t)); lra). set (p := fun a => exp (h a / t) / Z).
  assert (PP : forall a, 0 < p a) by (intros; unfold p; apply Rdiv_lt_0_compat; [apply exp_pos|auto]).
  assert (T1 : total (map p (seq 0 n)) = 1). { rewrite (total_ext p (fun a => / Z * exp (h a / t))) by (intros; unfold p, Rdiv; ring). rewrite total_scale. fold Z. field. lra. }
  assert (E := @entropy_bound n p Hn (fun a _ => PP a) T1).
  assert (F : total (map (fun a => (m * / t) * p a + (- / t) * (p a * h a)) (seq 0 n)) <= total (map (fun a => p a * - ln (p a)) (seq 0 n))).
  { apply total_mono. intros a _. replace (m * / t * p a + - / t * (p a * h a)) with (p a * (m / t - h a / t)) by (unfold Rdiv; ring). apply Rmult_le_compat_l; [apply Rlt_le, PP|]. unfold p at 1, Rdiv at 3.
    rewrite ln_mult, ln_exp, ln_Rinv by (auto using exp_pos, Rinv_0_lt_compat). assert (Y : m / t <= ln Z). { rewrite <- (ln_exp (m / t)). destruct PZ as [PZ|PZ]; [left; apply ln_increasing; auto using exp_pos|right; now rewrite PZ]. } lra. }
  rewrite total_add, !total_scale, T1 in F. set (S := total (map (fun a => p a * h a) (seq 0 n))) in *. assert (X : (m - S) * / t <= ln (INR n)) by lra.
  apply (Rmult_le_compat_l t) in X; [|lra]. replace (t * ((m - S) * / t)) with (m - S) in X by (field; lra). change (m - t * ln (INR n) <= S). lra.
Qed.

(** The losses of the two policies for a q-function that is close to q. *)
Section Losses.
Variables nS nA : nat.
Variable q : nat -> nat -> R.
Variable f : qfun nat R.
Hypothesis HA : (1 <= nA)%nat.
Lemma boltzmann_ok : forall t s, width nA f -> 0 < t -> exists z, boltzmann_policy nA t f s = Ok z /\ length z = nA.
Proof. intros t s W Ht. destruct (C51_boltzmann nat nA t f s HA W Ht) as (z & E & L & _). eauto. Qed.
Lemma eps_ok : forall eps s, width nA f -> 0 <= eps <= 1 -> exists z, eps_greedy nA eps f s = Ok z /\ length z = nA.
Proof. intros t s W Ht. destruct (C51_epsilon_greedy nat nA t f s HA W Ht) as (z & E & L & _). eauto. Qed.
Lemma boltzmann_expected : forall t D s m, 0 < t -> close_to nS nA (fun x => x) f q D -> (s < nS)%nat -> is_maximum nA (q s) m ->
  m - (2 * D + t * ln (INR nA)) <= expectation nA (prob nA (boltzmann_policy nA t f) s) (q s).
Proof.
  intros t D s m Ht C Hs Hm. pose proof C as [W _]. destruct (C51_boltzmann nat nA t f s HA W Ht) as (z & E & L & P & _). destruct (max_exists HA (qval nA f s)) as [k Hk].
  assert (B := boltzmann_loss HA Ht Hk). assert (CQ := fun a Ha => @close_qval nS nA q f (fun x => x) D s a C Hs Ha).
  assert (K : m - D <= k). { destruct Hm as [(b & Hb & <-) _]. assert (X := proj2 Hk b Hb). specialize (CQ b Hb). unfold Rabs in CQ. destruct (Rcase_abs _) in CQ; lra. }
  assert (PO' : forall x, (x < S s)%nat -> exists z, boltzmann_policy nA t f x = Ok z /\ length z = nA) by (intros; now apply boltzmann_ok).
  apply Rle_trans with (expectation nA (prob nA (boltzmann_policy nA t f) s) (fun a => qval nA f s a + - D)).
  2: { apply (@expectation_le (S s) nA _ HA PO'); [lia|]. intros a Ha. specialize (CQ a Ha). unfold Rabs in CQ. destruct (Rcase_abs _) in CQ; lra. }
  rewrite (@expectation_shift (S s) nA _ HA PO') by lia. replace (expectation nA (prob nA (boltzmann_policy nA t f) s) (qval nA f s)) with (total (map (fun a => exp (qval nA f s a / t) / total (map (fun c => exp (qval nA f s c / t)) (seq 0 nA)) * qval nA f s a) (seq 0 nA))); [lra|].
  unfold expectation. apply total_ext. intros a I. apply in_seq in I. unfold prob. rewrite E, P by lia. reflexivity.
Qed.
Lemma eps_expected : forall eps g D K s m, 0 <= eps <= 1 -> rising g -> close_to nS nA g f q D -> (s < nS)%nat -> is_maximum nA (q s) m -> (forall a, (a < nA)%nat -> m - q s a <= K) ->
  m - (2 * D + (eps + INR nA * smoothing_1e15) * K) <= expectation nA (prob nA (eps_greedy nA eps f) s) (q s).
Proof.
  intros eps g D K s m He Hr C Hs Hm HK. pose proof C as [W _]. destruct (C51_epsilon_greedy nat nA eps f s HA W He) as (z & E & L & P).
  assert (PO : forall x, (x < S s)%nat -> exists z, eps_greedy nA eps f x = Ok z /\ length z = nA) by (intros; now apply eps_ok).
  assert (PS : 0 < smoothing_1e15) by (unfold smoothing_1e15; apply Rinv_0_lt_compat, pow_lt; lra). assert (PN : 0 < INR nA) by (apply lt_0_INR; lia).
  assert (K0 : 0 <= K). { destruct Hm as [(b & Hb & Eb) _]. specialize (HK b Hb). lra. }
  assert (D0 : 0 <= D). { destruct Hm as [(b & Hb & Eb) _]. assert (X := @close_qval nS nA q f g D s b C Hs Hb). assert (Y := Rabs_pos (g (qval nA f s b) - q s b)). lra. }
  set (delta := smoothing_1e15) in *. assert (PD : 0 < 1 + INR nA * delta) by (assert (0 < INR nA * delta) by (apply Rmult_lt_0_compat; auto); lra).
  (* the loss of an action, weighted *)
  assert (X : forall a, (a < nA)%nat -> prob nA (eps_greedy nA eps f) s a * (m - q s a) <= prob nA (eps_greedy nA eps f) s a * (2 * D) + (eps / INR nA + delta) * K).
  { intros a Ha. assert (Q0 := @prob_pos (S s) nA _ HA PO s a ltac:(lia)). unfold prob in *. rewrite E in *. destruct (P a Ha) as (p & (Mx & ND & NE & HMx & Hp) & B & _ & _). rewrite B in *. destruct Hp as [[I ->]|[NI ->]].
    - apply HMx in I. destruct (@greedy_loss nS nA q f g Hr D s a m C Hs Hm I) as [_ G]. assert (Y : m - q s a <= 2 * D) by lra. apply (Rmult_le_compat_l _ _ _ Q0) in Y. assert (0 <= (eps / INR nA + delta) * K); [|lra]. apply Rmult_le_pos; auto. assert (0 <= eps / INR nA) by (unfold Rdiv; apply Rmult_le_pos; [lra|apply Rlt_le, Rinv_0_lt_compat; auto]). lra.
    - assert (Y := HK a Ha). apply (Rmult_le_compat_l _ _ _ Q0) in Y. assert (Z := Rmult_le_pos _ _ Q0 (Rmult_le_pos 2 D ltac:(lra) D0)).
      assert (V : (eps * (1 / INR nA) + (1 - eps) * 0 + delta) / (1 + INR nA * delta) * K <= (eps / INR nA + delta) * K); [|lra]. apply Rmult_le_compat_r; auto.
      replace (eps * (1 / INR nA) + (1 - eps) * 0 + delta) with (eps / INR nA + delta) by (field; lra). assert (V0 : 0 <= eps / INR nA + delta). { assert (0 <= eps / INR nA) by (unfold Rdiv; apply Rmult_le_pos; [lra|apply Rlt_le, Rinv_0_lt_compat; auto]). lra. }
      apply (Rmult_le_reg_r (1 + INR nA * delta)); auto. unfold Rdiv at 1. rewrite Rmult_assoc, Rinv_l, Rmult_1_r by lra. rewrite <- (Rmult_1_r (eps / INR nA + delta)) at 1. apply Rmult_le_compat_l; [lra|]. assert (0 < INR nA * delta) by (apply Rmult_lt_0_compat; auto). lra. }
  assert (Y := @total_mono (fun a => prob nA (eps_greedy nA eps f) s a * (m - q s a)) (fun a => prob nA (eps_greedy nA eps f) s a * (2 * D) + (eps / INR nA + delta) * K) (seq 0 nA)).
  cbv beta in Y. rewrite total_add, total_one, seq_length in Y. assert (T1 := @prob_total (S s) nA _ HA PO s ltac:(lia)).
  rewrite (total_ext (fun a => prob nA (eps_greedy nA eps f) s a * (2 * D)) (fun a => (2 * D) * prob nA (eps_greedy nA eps f) s a)) in Y by (intros; ring). rewrite total_scale, T1 in Y.
  rewrite (total_ext (fun a => prob nA (eps_greedy nA eps f) s a * (m - q s a)) (fun a => m * prob nA (eps_greedy nA eps f) s a + -1 * (prob nA (eps_greedy nA eps f) s a * q s a))) in Y by (intros; ring). rewrite total_add, !total_scale, T1 in Y.
  fold (expectation nA (prob nA (eps_greedy nA eps f) s) (q s)) in Y. replace (INR nA * ((eps / INR nA + delta) * K)) with ((eps + INR nA * delta) * K) in Y by (field; lra).
  assert (Y' : m * 1 + -1 * expectation nA (prob nA (eps_greedy nA eps f) s) (q s) <= 2 * D * 1 + (eps + INR nA * delta) * K). { apply Y. intros a I. apply in_seq in I. apply X. lia. } lra.
Qed.
End Losses.
