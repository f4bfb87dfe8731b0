(** DDPG: the policy table converges to optimal actions while its critic is still learning. *)
From Coq Require Import List Lia Bool Arith ZArith Reals Lra.
From Verif Require Import PyCommon CommonProofs UtilsModel UtilsSpec UtilsProofs2 UtilsProofs3 DistModel DistSpec DistProofs LossModel QModel TDModel TDSpec TDProofs TDProofs3 CoreModel CoreSpec CoreProofs CoreProofs2 TracerModel WorkerModel PolicyModel PolicySpec PolicyProofs2
  LearnModel LearnSpec LearnProofs LearnProofs2 LearnProofs3 LearnProofs4 LearnProofs5 LearnProofs7 PgModel PgSpec PgProofs PgProofs4 PpoSpec PpoProofs PlayModel PlaySpec PlayProofs DpgModel DpgSpec DpgProofs DpgProofs2.
Import ListNotations.
Set Implicit Arguments.
Local Open Scope R_scope.

(** * Geometric errors over blocks *)

Section Blocks.
Variables (D rr : R) (M : nat).
Hypothesis HD : 0 <= D.
Hypothesis Hr : 0 <= rr < 1.
Hypothesis HM : (1 <= M)%nat.
Definition bep (t : nat) : R := rr ^ (t / M) * D.
Definition btail (t : nat) : R := bep t * (INR M / (1 - rr) - INR (t mod M)).
Lemma bep_nonneg : forall t, 0 <= bep t.
Proof. intros t. unfold bep. apply Rmult_le_pos; auto. apply pow_le. lra. Qed.
Lemma span : INR M <= INR M / (1 - rr).
Proof. pose proof (lt_0_INR M ltac:(lia)). apply (Rmult_le_reg_r (1 - rr)); [lra|]. unfold Rdiv. rewrite Rmult_assoc, Rinv_l by lra. nra. Qed.
Lemma btail_nonneg : forall t, 0 <= btail t.
Proof.
  intros t. unfold btail. apply Rmult_le_pos; [apply bep_nonneg|]. pose proof span. pose proof (Nat.mod_upper_bound t M ltac:(lia)) as U. apply lt_INR in U. lra.
Qed.
Lemma btail_step : forall t, bep t + btail (S t) <= btail t.
Proof.
  intros t. pose proof (Nat.div_mod t M ltac:(lia)) as E. pose proof (Nat.mod_upper_bound t M ltac:(lia)) as U. set (k := (t / M)%nat) in *. set (j := (t mod M)%nat) in *. destruct (Nat.eq_dec (S j) M) as [EM|NM].
  - assert (E1 : (S t / M = S k)%nat) by (symmetry; apply Nat.div_unique with 0%nat; [lia|nia]). assert (E2 : (S t mod M = 0)%nat) by (symmetry; apply Nat.mod_unique with (S k); [lia|nia]).
    unfold btail, bep. rewrite E1, E2. fold k j. cbn [INR pow]. assert (EJ : INR j = INR M - 1) by (rewrite <- EM, S_INR; lra). rewrite EJ. right. field. lra.
  - assert (E1 : (S t / M = k)%nat) by (symmetry; apply Nat.div_unique with (S j); [lia|nia]). assert (E2 : (S t mod M = S j)%nat) by (symmetry; apply Nat.mod_unique with k; [lia|nia]).
    unfold btail, bep. rewrite E1, E2. fold k j. rewrite S_INR. right. ring.
Qed.
Lemma btail_bdd : bdd btail.
Proof.
  assert (S1 : forall N, ps bep N + btail N <= btail 0). { induction N as [|N IH]; cbn [ps]; [lra|]. pose proof (btail_step N). lra. }
  apply bdd_le with (v := fun t => INR M / (1 - rr) * bep t).
  - intros t. unfold btail. pose proof (bep_nonneg t). pose proof (pos_INR (t mod M)). nra.
  - apply bdd_scal; [pose proof span; pose proof (pos_INR M); lra|]. exists (btail 0). intros N. specialize (S1 N). pose proof (btail_nonneg N). lra.
Qed.
End Blocks.

(** Many steps of at least c add up. *)
Lemma far_sum : forall (eta : nat -> R) c, (forall t, 0 <= eta t) -> 0 < c -> (forall K, exists t, (K <= t)%nat /\ c <= eta t) -> forall B, exists N, B <= ps eta N.
Proof.
  intros eta c P Hc H B. assert (X : forall n, exists N, INR n * c <= ps eta N).
  { induction n as [|n (N & IH)]; [exists 0%nat; cbn; lra|]. destruct (H N) as (t & Lt & Et). exists (S t). cbn [ps]. pose proof (@ps_mono eta N t P Lt). rewrite S_INR. lra. }
  assert (U0 : exists n, B / c < INR n) by (destruct (archimed (Rmax 0 (B / c))) as [A1 _]; exists (Z.to_nat (up (Rmax 0 (B / c)))); rewrite INR_IZR_INZ, Z2Nat.id by (apply le_IZR; pose proof (Rmax_l 0 (B / c)); lra); pose proof (Rmax_r 0 (B / c)); lra).
  destruct U0 as (n & Hn). destruct (X n) as (N & HN). exists N. apply (Rmult_lt_compat_r c) in Hn; auto. unfold Rdiv in Hn. rewrite Rmult_assoc, Rinv_l in Hn by lra. lra.
Qed.
Lemma soft_relaxed : forall nS nA tau th s a, (s < nS)%nat -> (a < nA)%nat -> soft nA (fun c => nth (s * nA + c) th 0 / tau) a = relaxed nA tau (logit_table nS nA th s) a.
Proof.
  intros nS nA tau th s a Hs Ha. unfold soft, sumx, relaxed. rewrite table_logit by auto. destruct (Nat.ltb_spec s nS); [|lia]. f_equal. f_equal. apply map_ext_in. intros c Hc. apply in_seq in Hc. rewrite table_logit by lia. destruct (Nat.ltb_spec s nS); [reflexivity|lia].
Qed.
Lemma soft_worth : forall nS nA tau th s h, (s < nS)%nat -> total (map (fun c => soft nA (fun c => nth (s * nA + c) th 0 / tau) c * h c) (seq 0 nA)) = worth nA tau (logit_table nS nA th s) h.
Proof. intros nS nA tau th s h Hs. unfold worth, expectation. apply f_equal, map_ext_in. intros c Hc. apply in_seq in Hc. now rewrite (@soft_relaxed nS) by (auto; lia). Qed.
Lemma total_cons : forall x l, total (x :: l) = x + total l.
Proof. reflexivity. Qed.
(** How often a state occurs. *)
Lemma weight_bounds : forall w, 1/10 <= weight w <= 10.
Proof. intros w. unfold weight. split; [apply Rmin_glb; [apply Rmax_r|lra]|apply Rmin_r]. Qed.
Lemma occurs_bounds : forall s rows, rows <> [] -> 0 <= occurs s rows <= 10.
Proof.
  intros s rows NE. unfold occurs, mean. rewrite map_length. assert (P : 0 < INR (length rows)) by (apply lt_0_INR; destruct rows; [congruence|cbn; lia]).
  assert (X : 0 <= total (map (fun r => if Nat.eqb (fst r) s then weight (snd r) else 0) rows) <= 10 * INR (length rows)).
  { clear NE P. induction rows as [|r rows IH]; [cbn; lra|]. cbn [map length]. rewrite total_cons, S_INR. pose proof (weight_bounds (snd r)). destruct (Nat.eqb (fst r) s); lra. }
  split; [apply Rmult_le_pos; [lra|left; now apply Rinv_0_lt_compat]|]. apply (Rmult_le_reg_r (INR (length rows))); auto. unfold Rdiv. rewrite Rmult_assoc, Rinv_l by lra. lra.
Qed.
Lemma occurs_in : forall s rows B, (length rows <= B)%nat -> In s (map fst rows) -> / (10 * INR B) <= occurs s rows.
Proof.
  intros s rows B LB I. assert (L1 : (1 <= length rows)%nat) by (destruct rows; [destruct I|cbn; lia]). assert (P : 0 < INR (length rows)) by (apply lt_0_INR; lia). pose proof (le_INR _ _ LB) as LB'.
  assert (N0 : forall r : nat * R, 0 <= (if Nat.eqb (fst r) s then weight (snd r) else 0)) by (intros r; pose proof (weight_bounds (snd r)); destruct (Nat.eqb (fst r) s); lra).
  assert (X : 1/10 <= total (map (fun r => if Nat.eqb (fst r) s then weight (snd r) else 0) rows)).
  { clear LB L1 P LB'. induction rows as [|r rows IH]; [destruct I|]. cbn [map]. rewrite total_cons. assert (T0 : 0 <= total (map (fun r => if Nat.eqb (fst r) s then weight (snd r) else 0) rows)) by (clear IH I; induction rows as [|r' rows IH]; cbn [map]; [cbn; lra|rewrite total_cons; specialize (N0 r'); lra]).
    destruct I as [E|I]; [rewrite E, Nat.eqb_refl; pose proof (weight_bounds (snd r)); lra|]. specialize (IH I). specialize (N0 r). lra. }
  unfold occurs, mean. rewrite map_length. unfold Rdiv. rewrite Rinv_mult. apply Rmult_le_compat; try lra; [left; apply Rinv_0_lt_compat; lra|]. now apply Rinv_le_contravar.
Qed.

(** * Sequences of tables *)

Section Tables.
Variables nS nA : nat.
Hypothesis HA : (1 <= nA)%nat.
Variable tau : R.
Hypothesis HT : 0 < tau.
Variable s : nat.
Hypothesis Hs : (s < nS)%nat.
Variable th : nat -> list R.
Variable eta : nat -> R.
Variable f : nat -> nat -> R.
Variable q : nat -> R.
Variables (ep T : nat -> R) (hi : R).
Notation W x h := (worth nA tau (logit_table nS nA x s) h).
Hypothesis STEP : forall t a, (a < nA)%nat -> nth (s * nA + a) (th (S t)) 0 = nth (s * nA + a) (th t) 0 + eta t * (relaxed nA tau (logit_table nS nA (th t) s) a * (f t a - W (th t) (f t)) / tau).
Hypothesis ETA : forall t, 0 <= eta t <= hi.
Hypothesis FAR : forall B, exists N, B <= ps eta N.
Hypothesis CLOSE : forall t a, (a < nA)%nat -> Rabs (f t a - q a) <= ep t.
Hypothesis TAIL : forall t, ep t + T (S t) <= T t.
Hypothesis TPOS : forall t, 0 <= T t.
Hypothesis TSUM : bdd T.
Theorem table_ascent : forall e, 0 < e -> exists N, forall t, (N <= t)%nat -> forall a, (a < nA)%nat -> q a - e <= W (th t) q.
Proof.
  intros e He. assert (P2 : 0 < / (tau * tau)) by (apply Rinv_0_lt_compat; now apply Rmult_lt_0_compat).
  destruct (@ascent nA HA (fun t c => nth (s * nA + c) (th t) 0 / tau) (fun t => / (tau * tau) * eta t) f q ep T (/ (tau * tau) * hi)) with (e := e) as (N & HN); auto.
  - intros t a Ha. rewrite STEP by auto. unfold adv. rewrite (@soft_relaxed nS), (@soft_worth nS) by auto. field. lra.
  - intros t. specialize (ETA t). split; [apply Rmult_le_pos; lra|]. apply Rmult_le_compat_l; lra.
  - intros B. destruct (FAR (B * (tau * tau))) as (N & HN). exists N. rewrite ps_scal. apply (Rmult_le_reg_r (tau * tau)); [now apply Rmult_lt_0_compat|]. replace (/ (tau * tau) * ps eta N * (tau * tau)) with (ps eta N) by (field; lra). exact HN.
  - exists N. intros t Lt a Ha. specialize (HN t Lt a Ha). now rewrite (@soft_worth nS) in HN.
Qed.
End Tables.

(** If the policy is worth nearly as much as the best action, then its most likely action is a best one. *)
Lemma mode_best : forall nA tau z h d a, (1 <= nA)%nat -> 0 < tau -> length z = nA -> 0 < d -> (forall c m, (c < nA)%nat -> is_maximum nA h m -> m - d < h c -> h c = m) ->
  (forall c, (c < nA)%nat -> h c - d / (2 * INR nA) <= worth nA tau z h) -> maximal_at z a -> PolicySpec.optimal nA h a.
Proof.
  intros nA tau z h d a HA Ht L Hd GAP W [Ha MX]. rewrite L in *. split; auto. destruct (@max_exists nA HA h) as (m & Hm). pose proof Hm as [(best & Hb & Em) UB]. assert (PI : 0 < INR nA) by (apply lt_0_INR; lia).
  destruct (Rlt_le_dec (m - d) (h a)) as [C|C]; [rewrite (GAP a m Ha Hm C); exact UB|]. exfalso. specialize (W best Hb). rewrite Em in W.
  set (p := soft nA (fun c => nth c z 0 / tau)). assert (EW : worth nA tau z h = total (map (fun c => p c * h c) (seq 0 nA))) by reflexivity. rewrite EW in W.
  assert (P0 : forall c, 0 < p c) by (intros c; now apply soft_pos). assert (P1 : total (map p (seq 0 nA)) = 1) by (now apply soft_one).
  assert (PA : forall c, (c < nA)%nat -> p c <= p a). { intros c Hc. unfold p. rewrite (@soft_ratio nA (fun c => nth c z 0 / tau) a c). fold p. specialize (MX c Hc). pose proof (P0 a) as P. assert (E1 : exp (nth c z 0 / tau - nth a z 0 / tau) <= 1). { rewrite <- exp_0. assert (X : nth c z 0 / tau - nth a z 0 / tau <= 0) by (unfold Rdiv; pose proof (Rinv_0_lt_compat _ Ht); nra). destruct X as [X|X]; [left; now apply exp_increasing|rewrite X; lra]. } change (soft nA (fun c => nth c z 0 / tau) a) with (p a). nra. }
  assert (S1 : 1 <= INR nA * p a). { rewrite <- P1. rewrite <- (seq_length nA 0) at 2. rewrite <- (@total_const nat). apply total_le. intros c Hc. apply in_seq in Hc. apply PA. lia. }
  assert (S2 : total (map (fun c => p c * h c) (seq 0 nA)) <= m - p a * d).
  { apply Rle_trans with (total (map (fun c => m * p c - (if Nat.eqb c a then p c * d else 0)) (seq 0 nA))).
    - apply total_le. intros c Hc. apply in_seq in Hc. pose proof (P0 c). pose proof (UB c ltac:(lia)). destruct (Nat.eqb_spec c a) as [->|NE]; nra.
    - rewrite total_minus, total_scal, P1, (@total_single nA a (fun c => p c * d)) by auto. lra. }
  assert (d / (2 * INR nA) * (2 * INR nA) = d) by (field; lra). assert (d / (2 * INR nA) > 0) by (apply Rmult_lt_0_compat; auto; apply Rinv_0_lt_compat; lra). nra.
Qed.
