From Coq Require Import List Lia Bool Arith Reals Lra.
From Verif Require Import PyCommon CommonProofs UtilsModel UtilsSpec UtilsProofs2 UtilsProofs3 DistModel DistSpec DistProofs QModel TDModel TDSpec TDProofs TDProofs4 CoreModel CoreSpec LearnModel LearnSpec LearnProofs LearnProofs5 NoiseSpec.
Import ListNotations.
Set Implicit Arguments.
Local Open Scope R_scope.

(** * Fixed points of contractions *)
Section Fixed.
Variables nS nA : nat.
Variable F : (nat -> nat -> R) -> nat -> nat -> R.
Variable gamma : R.
Hypothesis Hg : 0 <= gamma < 1.
Notation near := (near nS nA).
Notation bound := (bound nS nA).
Hypothesis CF : forall q q' eps, 0 <= eps -> near q q' eps -> near (F q) (F q') (gamma * eps).
Fixpoint it (n : nat) : nat -> nat -> R := match n with O => fun _ _ => 0 | S n' => F (it n') end.
Let C0 := bound (it 1).
Lemma C0_pos : 0 <= C0 /\ 0 <= C0 / (1 - gamma).
Proof. assert (P : 0 <= C0) by apply bound_pos. split; auto. apply Rmult_le_pos; auto. left. apply Rinv_0_lt_compat. lra. Qed.
Lemma it_step : forall n, near (it (S n)) (it n) (gamma ^ n * C0).
Proof.
  induction n as [|n IH]; [intros s a Hs Ha; cbn [pow]; rewrite Rmult_1_l; replace (it 1 s a - it 0 s a) with (it 1 s a) by (cbn [it]; lra); apply bound_ok; auto|].
  cbn [pow]. rewrite Rmult_assoc. apply CF; auto. apply Rmult_le_pos; [apply pow_le; lra|apply C0_pos].
Qed.
Lemma it_far : forall k n, near (it (n + k)) (it n) (gamma ^ n * (C0 / (1 - gamma))).
Proof.
  destruct C0_pos as [P Q]. induction k as [|k IH]; intros n s a Hs Ha.
  - rewrite Nat.add_0_r. rewrite Rminus_diag_eq, Rabs_R0 by auto. apply Rmult_le_pos; auto. apply pow_le; lra.
  - replace (n + S k)%nat with (S n + k)%nat by lia. specialize (IH (S n) s a Hs Ha). pose proof (it_step n Hs Ha) as S1. replace (it (S n + k) s a - it n s a) with ((it (S n + k) s a - it (S n) s a) + (it (S n) s a - it n s a)) by lra. eapply Rle_trans; [apply Rabs_triang|].
    assert (gamma ^ S n * (C0 / (1 - gamma)) + gamma ^ n * C0 = gamma ^ n * (C0 / (1 - gamma))) by (cbn [pow]; field; lra). lra.
Qed.
Lemma it_cauchy : forall s a, (s < nS)%nat -> (a < nA)%nat -> Cauchy_crit (fun n => it n s a).
Proof.
  intros s a Hs Ha eps He. destruct C0_pos as [P Q].
  destruct (@pow_small gamma (C0 / (1 - gamma)) (eps / 3) Hg Q) as [N HN]; [lra|]. exists N. intros n m Hn Hm. unfold R_dist.
  pose proof (it_far (n - N) N Hs Ha) as A. pose proof (it_far (m - N) N Hs Ha) as B. replace (N + (n - N))%nat with n in A by lia. replace (N + (m - N))%nat with m in B by lia. specialize (HN N (le_n _)).
  replace (it n s a - it m s a) with ((it n s a - it N s a) - (it m s a - it N s a)) by lra. eapply Rle_lt_trans; [apply Rabs_triang|]. rewrite Rabs_Ropp. lra.
Qed.
Definition fixed (s a : nat) : R :=
  match lt_dec s nS with
  | left Hs => match lt_dec a nA with left Ha => proj1_sig (R_complete _ (it_cauchy Hs Ha)) | right _ => 0 end
  | right _ => 0
  end.
Lemma fixed_far : forall n, near fixed (it n) (gamma ^ n * (C0 / (1 - gamma))).
Proof.
  intros n s a Hs Ha. unfold fixed. destruct (lt_dec s nS) as [Hs'|]; [|lia]. destruct (lt_dec a nA) as [Ha'|]; [|lia]. destruct (R_complete _ _) as [l Hl]. cbn [proj1_sig]. apply Rnot_lt_le. intros H.
  destruct (Hl (Rabs (l - it n s a) - gamma ^ n * (C0 / (1 - gamma)))) as [N HN]; [lra|]. specialize (HN (n + N)%nat ltac:(lia)). unfold R_dist in HN. pose proof (it_far N n Hs Ha) as A.
  assert (Rabs (l - it n s a) <= Rabs (it (n + N) s a - l) + Rabs (it (n + N) s a - it n s a)). { replace (l - it n s a) with (- (it (n + N) s a - l) + (it (n + N) s a - it n s a)) by lra. eapply Rle_trans; [apply Rabs_triang|]. rewrite Rabs_Ropp. lra. }
  lra.
Qed.
Lemma fixed_ok : forall s a, (s < nS)%nat -> (a < nA)%nat -> fixed s a = F fixed s a.
Proof.
  intros s a Hs Ha. destruct C0_pos as [P Q]. apply (@close_eq _ _ 2); [|lra]. intros eps He. destruct (@pow_small gamma (C0 / (1 - gamma)) eps Hg Q He) as [N HN]. pose proof (HN N (le_n _)) as HN'. pose proof (@CF fixed (it N) eps ltac:(lra)) as U. assert (U1 : near fixed (it N) eps) by (intros s' a' Hs' Ha'; eapply Rle_trans; [apply (fixed_far N Hs' Ha')|auto]). specialize (U U1 s a Hs Ha).
  pose proof (fixed_far (S N) Hs Ha) as G. specialize (HN (S N) ltac:(lia)). cbn [it] in G.
  replace (fixed s a - F fixed s a) with ((fixed s a - F (it N) s a) - (F fixed s a - F (it N) s a)) by lra. eapply Rle_trans; [apply Rabs_triang|]. rewrite Rabs_Ropp. assert (gamma * eps <= eps) by nra. lra.
Qed.
Lemma fixed_unique : forall q q', (forall s a, (s < nS)%nat -> (a < nA)%nat -> q s a = F q s a) -> (forall s a, (s < nS)%nat -> (a < nA)%nat -> q' s a = F q' s a) -> forall s a, (s < nS)%nat -> (a < nA)%nat -> q s a = q' s a.
Proof.
  intros q q' B1 B2 s a Hs Ha. set (C := bound (fun s a => q s a - q' s a)). assert (P : 0 <= C) by apply bound_pos.
  assert (N : forall n, near q q' (gamma ^ n * C)). { induction n as [|n IH]; [intros s' a' Hs' Ha'; cbn [pow]; rewrite Rmult_1_l; exact (@bound_ok nS nA (fun s a => q s a - q' s a) s' a' Hs' Ha')|]. cbn [pow]. rewrite Rmult_assoc. intros s' a' Hs' Ha'. rewrite (B1 s' a'), (B2 s' a') by auto. apply CF; auto. apply Rmult_le_pos; auto. apply pow_le; lra. }
  apply (@close_eq _ _ 1); [|lra]. intros eps He. destruct (@pow_small gamma C eps Hg P He) as [n Hn]. eapply Rle_trans; [apply (N n s a Hs Ha)|]. specialize (Hn n (le_n _)). lra.
Qed.
End Fixed.

(** * Valuations are monotone *)
Definition one_sided (nA : nat) (val : valuation) : Prop := forall s h h' m m' eps, (forall a, (a < nA)%nat -> h a <= h' a + eps) -> val s h m -> val s h' m' -> m <= m' + eps.
Lemma by_max_one : forall nA, one_sided nA (by_max nA).
Proof. intros nA s h h' m m' eps H [[a [Ha <-]] _] [_ B]. specialize (H a Ha). specialize (B a Ha). lra. Qed.
Lemma by_policy_one : forall nA, (1 <= nA)%nat -> forall pi, (forall s, length (pi s) = nA) -> one_sided nA (by_policy nA pi).
Proof.
  intros nA Hn pi Hp s h h' m m' eps H -> ->. destruct (@boltzmann_dist nA Hn (pi s) (Hp s)) as [P1 P2]. unfold expectation.
  replace (total (map (fun a => boltzmann nA (pi s) a * h' a) (seq 0 nA)) + eps) with (total (map (fun a => boltzmann nA (pi s) a * h' a + eps * boltzmann nA (pi s) a) (seq 0 nA))).
  - apply total_le. intros a Ha. assert (0 <= boltzmann nA (pi s) a) by (apply P1; now apply in_map). apply in_seq in Ha. specialize (H a ltac:(lia)). nra.
  - rewrite total_plus, total_scal. rewrite P2. lra.
Qed.
Lemma by_soft_one : forall nA, (1 <= nA)%nat -> forall t, 0 < t -> one_sided nA (by_soft nA t).
Proof.
  intros nA Hn t Ht s h h' m m' eps H -> ->. unfold soft_maximum.
  assert (P : forall g : nat -> R, 0 < total (map (fun a => exp (g a / t)) (seq 0 nA))).
  { intros g. apply Rlt_le_trans with (exp (g 0%nat / t)); [apply exp_pos|]. apply (@total_in_le _ (fun a => exp (g a / t)) (seq 0 nA) 0%nat); [intros; left; apply exp_pos|apply in_seq; lia]. }
  assert (I : 0 < / t) by now apply Rinv_0_lt_compat.
  assert (L : total (map (fun a => exp (h a / t)) (seq 0 nA)) <= exp (eps / t) * total (map (fun a => exp (h' a / t)) (seq 0 nA))).
  { rewrite <- total_scal. apply total_le. intros a Ha. apply in_seq in Ha. rewrite <- exp_plus. specialize (H a ltac:(lia)). assert (E : h a / t <= eps / t + h' a / t) by (unfold Rdiv; rewrite <- Rmult_plus_distr_r; apply Rmult_le_compat_r; lra). destruct E as [E|E]; [left; now apply exp_increasing|right; now rewrite E]. }
  assert (LN : ln (total (map (fun a => exp (h a / t)) (seq 0 nA))) <= eps / t + ln (total (map (fun a => exp (h' a / t)) (seq 0 nA)))).
  { rewrite <- (ln_exp (eps / t)), <- ln_mult; [|apply exp_pos|apply P]. destruct L as [L|L]; [left; apply ln_increasing; auto|right; now rewrite L]. }
  apply (Rmult_le_compat_l t) in LN; [|lra]. replace (t * (eps / t + ln (total (map (fun a => exp (h' a / t)) (seq 0 nA))))) with (t * ln (total (map (fun a => exp (h' a / t)) (seq 0 nA))) + eps) in LN by (field; lra). exact LN.
Qed.
Lemma algorithm_one : forall nA net target val, (1 <= nA)%nat -> algorithm nA net target val -> one_sided nA val /\ exists v : nat -> (nat -> R) -> R, forall s h, val s h (v s h).
Proof.
  intros nA net target val HA [|pi Hp|t Ht].
  - split; [apply by_max_one|]. exists (fun _ h => h (proj1_sig (arg_max h HA))). intros s h. destruct (arg_max h HA) as (a & Ha & M). cbn [proj1_sig]. split; [exists a; auto|auto].
  - split; [now apply by_policy_one|]. exists (fun s h => expectation nA (boltzmann nA (pi s)) h). reflexivity.
  - split; [now apply by_soft_one|]. exists (fun _ h => soft_maximum nA t h). reflexivity.
Qed.
Lemma one_sided_val : forall nA val, one_sided nA val -> forall s h m m', val s h m -> val s h m' -> m = m'.
Proof. intros nA val OS s h m m' A B. apply Rle_antisym; [rewrite <- (Rplus_0_r m')|rewrite <- (Rplus_0_r m)]; eapply OS; eauto; intros; lra. Qed.

(** * Values under the best luck, the worst luck, and in the mean *)
Section Luck.
Variables nS nA nW : nat.
Variable dyn : nat -> nat -> nat -> nat * R * bool.
Hypothesis HA : (1 <= nA)%nat.
Hypothesis HW : (1 <= nW)%nat.
Hypothesis CL : all_closed nS nA nW dyn.
Variable gamma : R.
Hypothesis Hg : 0 <= gamma < 1.
Variable val : valuation.
Hypothesis OS : one_sided nA val.
Variable v : nat -> (nat -> R) -> R.
Hypothesis HV : forall s h, val s h (v s h).
Notation near := (near nS nA).
Definition row_worth (q : nat -> nat -> R) (w s a : nat) : R := reward (dyn w) s a + (if ends (dyn w) s a then 0 else gamma * v (next (dyn w) s a) (q (next (dyn w) s a))).
Lemma row_worth_ok : forall q w s a, worth dyn gamma val q w s a (row_worth q w s a).
Proof. intros q w s a. exists (v (next (dyn w) s a) (q (next (dyn w) s a))). split; [apply HV|reflexivity]. Qed.
Lemma worth_unique : forall q w s a x, worth dyn gamma val q w s a x -> x = row_worth q w s a.
Proof. intros q w s a x (m & M & ->). unfold row_worth. now rewrite (@one_sided_val nA val OS _ _ _ _ M (HV _ _)). Qed.
Lemma row_worth_near : forall q q' eps w s a, 0 <= eps -> near q q' eps -> (w < nW)%nat -> (s < nS)%nat -> (a < nA)%nat -> Rabs (row_worth q w s a - row_worth q' w s a) <= gamma * eps.
Proof.
  intros q q' eps w s a He N Hw Hs Ha. unfold row_worth. destruct (ends (dyn w) s a).
  - match goal with |- Rabs ?e <= _ => replace e with 0 by lra end. rewrite Rabs_R0. nra.
  - match goal with |- Rabs (?r + ?g * ?x - (?r + ?g * ?z)) <= _ => replace (r + g * x - (r + g * z)) with (g * (x - z)) by ring end. rewrite Rabs_mult, (Rabs_right gamma) by lra. apply Rmult_le_compat_l; [lra|].
    assert (C := CL Hw Hs Ha). apply Rabs_le. split.
    + assert (v (next (dyn w) s a) (q' (next (dyn w) s a)) <= v (next (dyn w) s a) (q (next (dyn w) s a)) + eps); [|lra]. eapply OS; [|apply HV|apply HV]. intros c Hc. specialize (N _ _ C Hc). unfold Rabs in N. destruct (Rcase_abs _) in N; lra.
    + assert (v (next (dyn w) s a) (q (next (dyn w) s a)) <= v (next (dyn w) s a) (q' (next (dyn w) s a)) + eps); [|lra]. eapply OS; [|apply HV|apply HV]. intros c Hc. specialize (N _ _ C Hc). unfold Rabs in N. destruct (Rcase_abs _) in N; lra.
Qed.
(** The largest (sg = 1) or the smallest (sg = -1) worth. *)
Definition pick (sg : R) (q : nat -> nat -> R) (s a : nat) : R := row_worth q (proj1_sig (arg_max (fun w => sg * row_worth q w s a) HW)) s a.
Lemma pick_ok : forall sg q s a, (exists w, (w < nW)%nat /\ pick sg q s a = row_worth q w s a) /\ forall w, (w < nW)%nat -> sg * row_worth q w s a <= sg * pick sg q s a.
Proof. intros sg q s a. unfold pick. destruct (arg_max (fun w => sg * row_worth q w s a) HW) as (w & Hw & M). cbn [proj1_sig]. split; eauto. Qed.
Lemma pick_near : forall sg, sg = 1 \/ sg = -1 -> forall q q' eps, 0 <= eps -> near q q' eps -> near (pick sg q) (pick sg q') (gamma * eps).
Proof.
  intros sg SG q q' eps He N s a Hs Ha. destruct (pick_ok sg q s a) as [(w & Hw & E) M]. destruct (pick_ok sg q' s a) as [(w' & Hw' & E') M'].
  pose proof (@row_worth_near q q' eps w s a He N Hw Hs Ha) as A. pose proof (@row_worth_near q q' eps w' s a He N Hw' Hs Ha) as B. specialize (M w' Hw'). specialize (M' w Hw). rewrite E, E' in *.
  unfold Rabs in A, B. apply Rabs_le. destruct (Rcase_abs _) in A; destruct (Rcase_abs _) in B; destruct SG as [-> | ->]; lra.
Qed.
Lemma luck_solution : forall sg, sg = 1 \/ sg = -1 -> exists q, (forall s a, (s < nS)%nat -> (a < nA)%nat -> q s a = pick sg q s a) /\ forall q', (forall s a, (s < nS)%nat -> (a < nA)%nat -> q' s a = pick sg q' s a) -> forall s a, (s < nS)%nat -> (a < nA)%nat -> q' s a = q s a.
Proof.
  intros sg SG. exists (@fixed nS nA (pick sg) gamma Hg (pick_near SG)). split; [intros; now apply fixed_ok|]. intros q' H s a Hs Ha. eapply (@fixed_unique nS nA (pick sg) gamma); eauto; [now apply pick_near|intros; now apply fixed_ok].
Qed.
Lemma best_luck_pick : forall q, best_luck nS nA nW dyn gamma val q <-> forall s a, (s < nS)%nat -> (a < nA)%nat -> q s a = pick 1 q s a.
Proof.
  intros q. split.
  - intros [U E] s a Hs Ha. destruct (pick_ok 1 q s a) as [(w & Hw & P) M]. destruct (E s a Hs Ha) as (w' & Hw' & X). apply worth_unique in X. destruct (U s a w Hs Ha Hw) as (x & X1 & X2). apply worth_unique in X1. specialize (M w' Hw'). rewrite P in *. lra.
  - intros H. split.
    + intros s a w Hs Ha Hw. exists (row_worth q w s a). split; [apply row_worth_ok|]. rewrite (H s a Hs Ha). destruct (pick_ok 1 q s a) as [_ M]. specialize (M w Hw). lra.
    + intros s a Hs Ha. destruct (pick_ok 1 q s a) as [(w & Hw & P) _]. exists w. split; auto. rewrite (H s a Hs Ha), P. apply row_worth_ok.
Qed.
Lemma worst_luck_pick : forall q, worst_luck nS nA nW dyn gamma val q <-> forall s a, (s < nS)%nat -> (a < nA)%nat -> q s a = pick (-1) q s a.
Proof.
  intros q. split.
  - intros [U E] s a Hs Ha. destruct (pick_ok (-1) q s a) as [(w & Hw & P) M]. destruct (E s a Hs Ha) as (w' & Hw' & X). apply worth_unique in X. destruct (U s a w Hs Ha Hw) as (x & X1 & X2). apply worth_unique in X1. specialize (M w' Hw'). rewrite P in *. lra.
  - intros H. split.
    + intros s a w Hs Ha Hw. exists (row_worth q w s a). split; [apply row_worth_ok|]. rewrite (H s a Hs Ha). destruct (pick_ok (-1) q s a) as [_ M]. specialize (M w Hw). lra.
    + intros s a Hs Ha. destruct (pick_ok (-1) q s a) as [(w & Hw & P) _]. exists w. split; auto. rewrite (H s a Hs Ha), P. apply row_worth_ok.
Qed.
(** The mean. *)
Variable P : list R.
Hypothesis HP : distribution P.
Hypothesis LP : length P = nW.
Definition mean_worth (q : nat -> nat -> R) (s a : nat) : R := total (map (fun w => nth w P 0 * row_worth q w s a) (seq 0 nW)).
Lemma P_total : total (map (fun w => nth w P 0) (seq 0 nW)) = 1.
Proof. rewrite <- LP, map_nth_seq. apply HP. Qed.
Lemma P_pos : forall w, 0 <= nth w P 0.
Proof. intros w. destruct (lt_dec w (length P)) as [H|H]; [apply HP; now apply nth_In|rewrite nth_overflow by lia; lra]. Qed.
Lemma weighted_near : forall (f g : nat -> R) e, (forall w, (w < nW)%nat -> Rabs (f w - g w) <= e) -> Rabs (total (map (fun w => nth w P 0 * f w) (seq 0 nW)) - total (map (fun w => nth w P 0 * g w) (seq 0 nW))) <= e.
Proof.
  intros f g e H. rewrite <- total_minus. assert (U : forall h k : nat -> R, (forall w, (w < nW)%nat -> h w <= k w) -> total (map h (seq 0 nW)) <= total (map k (seq 0 nW))) by (intros h k L; apply total_le; intros w Hw; apply in_seq in Hw; apply L; lia).
  assert (E : total (map (fun w => e * nth w P 0) (seq 0 nW)) = e) by (rewrite total_scal, P_total; lra). assert (E' : total (map (fun w => - e * nth w P 0) (seq 0 nW)) = - e) by (rewrite total_scal, P_total; lra).
  apply Rabs_le. split.
  - rewrite <- E'. apply U. intros w Hw. specialize (H w Hw). pose proof (P_pos w). unfold Rabs in H. destruct (Rcase_abs _) in H; nra.
  - rewrite <- E. apply U. intros w Hw. specialize (H w Hw). pose proof (P_pos w). unfold Rabs in H. destruct (Rcase_abs _) in H; nra.
Qed.
Lemma mean_near : forall q q' eps, 0 <= eps -> near q q' eps -> near (mean_worth q) (mean_worth q') (gamma * eps).
Proof. intros q q' eps He N s a Hs Ha. apply weighted_near. intros w Hw. now apply row_worth_near. Qed.
Lemma mean_bellman_iff : forall q, mean_bellman nS nA nW dyn P gamma val q <-> forall s a, (s < nS)%nat -> (a < nA)%nat -> q s a = mean_worth q s a.
Proof.
  intros q. split.
  - intros H s a Hs Ha. destruct (H s a Hs Ha) as (x & X & ->). unfold mean_worth. apply total_ext. intros w Hw. apply in_seq in Hw. f_equal. apply worth_unique. apply X. lia.
  - intros H s a Hs Ha. exists (fun w => row_worth q w s a). split; [intros; apply row_worth_ok|]. rewrite (H s a Hs Ha). reflexivity.
Qed.
Lemma mean_solution : exists q, mean_bellman nS nA nW dyn P gamma val q /\ forall q', mean_bellman nS nA nW dyn P gamma val q' -> forall s a, (s < nS)%nat -> (a < nA)%nat -> q' s a = q s a.
Proof.
  exists (@fixed nS nA mean_worth gamma Hg mean_near). split; [apply mean_bellman_iff; intros; now apply fixed_ok|]. intros q' H s a Hs Ha. eapply (@fixed_unique nS nA mean_worth gamma); eauto; [exact mean_near|now apply mean_bellman_iff|intros; now apply fixed_ok].
Qed.
End Luck.
