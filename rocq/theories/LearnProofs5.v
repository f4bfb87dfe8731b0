From Coq Require Import List Lia Bool Arith Reals Lra.
From Verif Require Import PyCommon CommonProofs UtilsModel UtilsSpec UtilsProofs2 UtilsProofs3 DistModel DistSpec DistProofs QModel TDModel TDSpec TDProofs CoreModel CoreSpec LearnModel LearnSpec LearnProofs.
Import ListNotations.
Set Implicit Arguments.
Local Open Scope R_scope.

(** * Solutions of the Bellman equation *)
Lemma pow_small : forall g C eps, 0 <= g < 1 -> 0 <= C -> 0 < eps -> exists N, forall n, (N <= n)%nat -> g ^ n * C <= eps.
Proof.
  intros g C eps Hg HC He. destruct (pow_lt_1_zero g ltac:(rewrite Rabs_right; lra) (eps / (C + 1))) as [N HN]; [apply Rdiv_lt_0_compat; lra|].
  exists N. intros n Hn. specialize (HN n Hn). rewrite Rabs_right in HN by (apply Rle_ge, pow_le; lra). assert (P := pow_le g n ltac:(lra)). apply Rle_trans with (eps / (C + 1) * C); [apply Rmult_le_compat_r; lra|].
  unfold Rdiv. rewrite Rmult_assoc. rewrite <- (Rmult_1_r eps) at 2. apply Rmult_le_compat_l; [lra|]. apply (Rmult_le_reg_l (C + 1)); [lra|]. rewrite <- Rmult_assoc, Rinv_r by lra. lra.
Qed.
Lemma close_eq : forall x y C, (forall eps, 0 < eps -> Rabs (x - y) <= C * eps) -> 0 <= C -> x = y.
Proof.
  intros x y C H HC. destruct (Req_dec x y) as [|N]; auto. exfalso. assert (P : 0 < Rabs (x - y)) by (apply Rabs_pos_lt; lra). specialize (H (Rabs (x - y) / (2 * (C + 1)))). assert (Q : 0 < Rabs (x - y) / (2 * (C + 1))) by (apply Rdiv_lt_0_compat; lra). specialize (H Q).
  assert (C * (Rabs (x - y) / (2 * (C + 1))) = Rabs (x - y) / 2 * (C / (C + 1))) by (field; lra). assert (C / (C + 1) <= 1) by (apply (Rmult_le_reg_r (C + 1)); [lra|]; unfold Rdiv; rewrite Rmult_assoc, Rinv_l by lra; lra). nra.
Qed.
Section Fix.
Variables nS nA : nat.
Variable dyn : nat -> nat -> nat * R * bool.
Hypothesis CL : closed nS nA dyn.
Variable gamma : R.
Hypothesis Hg : 0 <= gamma < 1.
Variable val : valuation.
Hypothesis NX : nonexpansive nA val.
(** A valuation computed by a function. *)
Variable v : nat -> (nat -> R) -> R.
Hypothesis HV : forall s h, val s h (v s h).
Definition upd_q (q : nat -> nat -> R) (s a : nat) : R :=
  if Nat.ltb s nS && Nat.ltb a nA then reward dyn s a + (if ends dyn s a then 0 else gamma * v (next dyn s a) (q (next dyn s a))) else 0.
Fixpoint iter_q (n : nat) : nat -> nat -> R := match n with O => fun _ _ => 0 | S n' => upd_q (iter_q n') end.
Definition near (q q' : nat -> nat -> R) (eps : R) : Prop := forall s a, (s < nS)%nat -> (a < nA)%nat -> Rabs (q s a - q' s a) <= eps.
Lemma upd_near : forall q q' eps, 0 <= eps -> near q q' eps -> near (upd_q q) (upd_q q') (gamma * eps).
Proof.
  intros q q' eps He H s a Hs Ha. unfold upd_q. apply Nat.ltb_lt in Hs as Hs'. apply Nat.ltb_lt in Ha as Ha'. rewrite Hs', Ha'. cbn [andb]. destruct (ends dyn s a).
  - match goal with |- Rabs ?e <= _ => replace e with 0 by lra end. rewrite Rabs_R0. nra.
  - match goal with |- Rabs (?r + ?g * ?x - (?r + ?g * ?z)) <= _ => replace (r + g * x - (r + g * z)) with (g * (x - z)) by ring end. rewrite Rabs_mult, (Rabs_right gamma) by lra. apply Rmult_le_compat_l; [lra|]. eapply NX; [|apply HV|apply HV]. intros c Hc. apply H; auto.
Qed.
Definition bound (q : nat -> nat -> R) : R := total (map (fun s => total (map (fun a => Rabs (q s a)) (seq 0 nA))) (seq 0 nS)).
Lemma bound_ok : forall q s a, (s < nS)%nat -> (a < nA)%nat -> Rabs (q s a) <= bound q.
Proof.
  intros q s a Hs Ha. unfold bound. assert (P : forall s, 0 <= total (map (fun a => Rabs (q s a)) (seq 0 nA))).
  { intros s'. assert (X := @total_le _ (fun _ : nat => 0) (fun a => Rabs (q s' a)) (seq 0 nA)). rewrite total_const in X. rewrite Rmult_0_r in X. apply X. intros. apply Rabs_pos. }
  eapply Rle_trans; [|apply (@total_in_le _ (fun s => total (map (fun a => Rabs (q s a)) (seq 0 nA))) (seq 0 nS) s); [intros; apply P|apply in_seq; lia]]. cbv beta. apply (@total_in_le _ (fun a => Rabs (q s a)) (seq 0 nA) a); [intros; apply Rabs_pos|apply in_seq; lia].
Qed.
Lemma bound_pos : forall q, 0 <= bound q.
Proof.
  intros q. unfold bound. assert (X := @total_le _ (fun _ : nat => 0) (fun s => total (map (fun a => Rabs (q s a)) (seq 0 nA))) (seq 0 nS)). rewrite total_const, Rmult_0_r in X. apply X. intros s _. assert (Y := @total_le _ (fun _ : nat => 0) (fun a => Rabs (q s a)) (seq 0 nA)). rewrite total_const, Rmult_0_r in Y. apply Y. intros. apply Rabs_pos.
Qed.
Let C0 := bound (iter_q 1).
Lemma iter_step : forall n, near (iter_q (S n)) (iter_q n) (gamma ^ n * C0).
Proof.
  induction n as [|n IH]; [intros s a Hs Ha; cbn [pow]; rewrite Rmult_1_l; replace (iter_q 1 s a - iter_q 0 s a) with (iter_q 1 s a) by (cbn [iter_q]; lra); apply bound_ok; auto|].
  cbn [pow]. rewrite Rmult_assoc. apply upd_near; auto. apply Rmult_le_pos; [apply pow_le; lra|apply bound_pos].
Qed.
Lemma iter_far : forall k n, near (iter_q (n + k)) (iter_q n) (gamma ^ n * (C0 / (1 - gamma))).
Proof.
  assert (P := bound_pos (iter_q 1)). fold C0 in P. assert (Q : 0 <= C0 / (1 - gamma)) by (apply Rmult_le_pos; auto; left; apply Rinv_0_lt_compat; lra).
  induction k as [|k IH]; intros n s a Hs Ha.
  - rewrite Nat.add_0_r. rewrite Rminus_diag_eq, Rabs_R0 by auto. apply Rmult_le_pos; auto. apply pow_le; lra.
  - replace (n + S k)%nat with (S n + k)%nat by lia. specialize (IH (S n) s a Hs Ha). pose proof (iter_step n Hs Ha) as S1. replace (iter_q (S n + k) s a - iter_q n s a) with ((iter_q (S n + k) s a - iter_q (S n) s a) + (iter_q (S n) s a - iter_q n s a)) by lra. eapply Rle_trans; [apply Rabs_triang|].
    assert (gamma ^ S n * (C0 / (1 - gamma)) + gamma ^ n * C0 = gamma ^ n * (C0 / (1 - gamma))) by (cbn [pow]; field; lra). lra.
Qed.
Lemma iter_cauchy : forall s a, (s < nS)%nat -> (a < nA)%nat -> Cauchy_crit (fun n => iter_q n s a).
Proof.
  intros s a Hs Ha eps He. assert (P := bound_pos (iter_q 1)). fold C0 in P. assert (Q : 0 <= C0 / (1 - gamma)) by (apply Rmult_le_pos; auto; left; apply Rinv_0_lt_compat; lra).
  destruct (@pow_small gamma (C0 / (1 - gamma)) (eps / 3) Hg Q) as [N HN]; [lra|]. exists N. intros n m Hn Hm. unfold R_dist.
  pose proof (iter_far (n - N) N Hs Ha) as A. pose proof (iter_far (m - N) N Hs Ha) as B. replace (N + (n - N))%nat with n in A by lia. replace (N + (m - N))%nat with m in B by lia. specialize (HN N (le_n _)).
  replace (iter_q n s a - iter_q m s a) with ((iter_q n s a - iter_q N s a) - (iter_q m s a - iter_q N s a)) by lra. eapply Rle_lt_trans; [apply Rabs_triang|]. rewrite Rabs_Ropp. lra.
Qed.
Definition fix_q (s a : nat) : R :=
  match lt_dec s nS with
  | left Hs => match lt_dec a nA with left Ha => proj1_sig (R_complete _ (iter_cauchy Hs Ha)) | right _ => 0 end
  | right _ => 0
  end.
Lemma fix_far : forall n, near fix_q (iter_q n) (gamma ^ n * (C0 / (1 - gamma))).
Proof.
  intros n s a Hs Ha. unfold fix_q. destruct (lt_dec s nS) as [Hs'|]; [|lia]. destruct (lt_dec a nA) as [Ha'|]; [|lia]. destruct (R_complete _ _) as [l Hl]. cbn [proj1_sig]. apply Rnot_lt_le. intros H.
  destruct (Hl (Rabs (l - iter_q n s a) - gamma ^ n * (C0 / (1 - gamma)))) as [N HN]; [lra|]. specialize (HN (n + N)%nat ltac:(lia)). unfold R_dist in HN. pose proof (iter_far N n Hs Ha) as A.
  assert (Rabs (l - iter_q n s a) <= Rabs (iter_q (n + N) s a - l) + Rabs (iter_q (n + N) s a - iter_q n s a)). { replace (l - iter_q n s a) with (- (iter_q (n + N) s a - l) + (iter_q (n + N) s a - iter_q n s a)) by lra. eapply Rle_trans; [apply Rabs_triang|]. rewrite Rabs_Ropp. lra. }
  lra.
Qed.
Lemma fix_bellman : bellman nS nA dyn gamma val fix_q.
Proof.
  intros s a Hs Ha. exists (v (next dyn s a) (fix_q (next dyn s a))). split; [apply HV|]. assert (P := bound_pos (iter_q 1)). fold C0 in P. assert (Q : 0 <= C0 / (1 - gamma)) by (apply Rmult_le_pos; auto; left; apply Rinv_0_lt_compat; lra).
  apply (@close_eq _ _ 2); [|lra]. intros eps He. destruct (@pow_small gamma (C0 / (1 - gamma)) eps Hg Q He) as [N HN]. pose proof (HN N (le_n _)) as HN'. pose proof (@upd_near fix_q (iter_q N) eps ltac:(lra)) as U. assert (U1 : near fix_q (iter_q N) eps) by (intros s' a' Hs' Ha'; eapply Rle_trans; [apply (fix_far N Hs' Ha')|auto]). specialize (U U1 s a Hs Ha).
  pose proof (fix_far (S N) Hs Ha) as F. specialize (HN (S N) ltac:(lia)). cbn [iter_q] in F.
  assert (EQ : reward dyn s a + (if ends dyn s a then 0 else gamma * v (next dyn s a) (fix_q (next dyn s a))) = upd_q fix_q s a). { unfold upd_q. apply Nat.ltb_lt in Hs as ->. apply Nat.ltb_lt in Ha as ->. reflexivity. }
  rewrite EQ. replace (fix_q s a - upd_q fix_q s a) with ((fix_q s a - upd_q (iter_q N) s a) - (upd_q fix_q s a - upd_q (iter_q N) s a)) by lra. eapply Rle_trans; [apply Rabs_triang|]. rewrite Rabs_Ropp. assert (gamma * eps <= eps) by nra. lra.
Qed.
End Fix.
Section Unique.
Variables nS nA : nat.
Variable dyn : nat -> nat -> nat * R * bool.
Hypothesis CL : closed nS nA dyn.
Variable gamma : R.
Hypothesis Hg : 0 <= gamma < 1.
Lemma bellman_shrinks : forall val q q' eps, nonexpansive nA val -> bellman nS nA dyn gamma val q -> bellman nS nA dyn gamma val q' -> 0 <= eps -> near nS nA q q' eps -> near nS nA q q' (gamma * eps).
Proof.
  intros val q q' eps NX B1 B2 He H s a Hs Ha. destruct (B1 s a Hs Ha) as (m & M & ->). destruct (B2 s a Hs Ha) as (m' & M' & ->). destruct (ends dyn s a).
  - match goal with |- Rabs ?e <= _ => replace e with 0 by lra end. rewrite Rabs_R0. nra.
  - match goal with |- Rabs (?r + ?g * ?x - (?r + ?g * ?z)) <= _ => replace (r + g * x - (r + g * z)) with (g * (x - z)) by ring end. rewrite Rabs_mult, (Rabs_right gamma) by lra. apply Rmult_le_compat_l; [lra|]. eapply NX; [|exact M|exact M']. intros c Hc. apply H; auto.
Qed.
Lemma bellman_unique : forall val q q', nonexpansive nA val -> bellman nS nA dyn gamma val q -> bellman nS nA dyn gamma val q' -> forall s a, (s < nS)%nat -> (a < nA)%nat -> q s a = q' s a.
Proof.
  intros val q q' NX B1 B2 s a Hs Ha. set (C := bound nS nA (fun s a => q s a - q' s a)). assert (P : 0 <= C) by apply bound_pos.
  assert (N : forall n, near nS nA q q' (gamma ^ n * C)). { induction n as [|n IH]; [intros s' a' Hs' Ha'; cbn [pow]; rewrite Rmult_1_l; exact (@bound_ok nS nA (fun s a => q s a - q' s a) s' a' Hs' Ha')|]. cbn [pow]. rewrite Rmult_assoc. eapply bellman_shrinks; eauto. apply Rmult_le_pos; auto. apply pow_le; lra. }
  apply (@close_eq _ _ 1); [|lra]. intros eps He. destruct (@pow_small gamma C eps Hg P He) as [n Hn]. eapply Rle_trans; [apply (N n s a Hs Ha)|]. specialize (Hn n (le_n _)). lra.
Qed.
(** * The solution for the maximum is optimal *)
Lemma arg_max : forall (h : nat -> R) n, (1 <= n)%nat -> {a | (a < n)%nat /\ forall b, (b < n)%nat -> h b <= h a}.
Proof.
  intros h n. induction n as [|n IH]; intros Hn; [lia|]. destruct n as [|n]; [exists 0%nat; split; [lia|]; intros b Hb; replace b with 0%nat by lia; lra|]. destruct IH as (a & Ha & M); [lia|].
  destruct (Rle_dec (h a) (h (S n))) as [C|C].
  - exists (S n). split; [lia|]. intros b Hb. destruct (Nat.eq_dec b (S n)) as [->|]; [lra|]. specialize (M b ltac:(lia)). lra.
  - exists a. split; [lia|]. intros b Hb. destruct (Nat.eq_dec b (S n)) as [->|]; [lra|]. apply M. lia.
Qed.
Fixpoint follow (g : nat -> nat) (s a : nat) (k : nat) : nat := match k with O => a | S k' => follow g (next dyn s a) (g (next dyn s a)) k' end.
Lemma partial_ext : forall n s f f', (forall k, f k = f' k) -> partial_sum dyn gamma n s f = partial_sum dyn gamma n s f'.
Proof. induction n as [|n IH]; intros s f f' E; auto. cbn [partial_sum]. rewrite <- (E 0%nat). destruct (ends dyn s (f 0%nat)); auto. do 2 f_equal. apply IH. intros. apply E. Qed.
Lemma bellman_optimal : forall q, (1 <= nA)%nat -> bellman nS nA dyn gamma (by_max nA) q -> optimal nS nA dyn gamma q.
Proof.
  intros q HA BE. set (M := bound nS nA q). assert (PM : 0 <= M) by apply bound_pos.
  assert (UP : forall n s acts, (s < nS)%nat -> legal nA acts -> partial_sum dyn gamma n s acts <= q s (acts 0%nat) + gamma ^ n * M).
  { induction n as [|n IH]; intros s acts Hs HL; cbn [partial_sum pow].
    - pose proof (@bound_ok nS nA q s (acts 0%nat) Hs (HL 0%nat)) as X. fold M in X. unfold Rabs in X. destruct (Rcase_abs _); lra.
    - destruct (BE s (acts 0%nat) Hs (HL 0%nat)) as (m & [_ MX] & ->). destruct (ends dyn s (acts 0%nat)).
      + assert (0 <= gamma * gamma ^ n * M) by (apply Rmult_le_pos; auto; apply Rmult_le_pos; [lra|apply pow_le; lra]). lra.
      + assert (Hs' := CL Hs (HL 0%nat)). specialize (IH (next dyn s (acts 0%nat)) (fun k => acts (S k)) Hs' (fun k => HL (S k))). cbv beta in IH. specialize (MX (acts 1%nat) (HL 1%nat)). assert (gamma * partial_sum dyn gamma n (next dyn s (acts 0%nat)) (fun k => acts (S k)) <= gamma * (m + gamma ^ n * M)) by (apply Rmult_le_compat_l; lra). lra. }
  set (g := fun s => proj1_sig (arg_max (q s) HA)). assert (Hgr : forall s, (g s < nA)%nat /\ forall b, (b < nA)%nat -> q s b <= q s (g s)) by (intros s; unfold g; destruct (arg_max (q s) HA); auto).
  assert (LO : forall n s a, (s < nS)%nat -> (a < nA)%nat -> Rabs (partial_sum dyn gamma n s (follow g s a) - q s a) <= gamma ^ n * M).
  { induction n as [|n IH]; intros s a Hs Ha.
    - cbn [partial_sum pow]. replace (0 - q s a) with (- q s a) by lra. rewrite Rabs_Ropp, Rmult_1_l. apply bound_ok; auto.
    - cbn [partial_sum pow]. change (follow g s a 0%nat) with a. destruct (BE s a Hs Ha) as (m & [[b [Hb EB]] MX] & ->). destruct (ends dyn s a).
      + match goal with |- Rabs ?e <= _ => replace e with 0 by lra end. rewrite Rabs_R0. apply Rmult_le_pos; auto. apply Rmult_le_pos; [lra|apply pow_le; lra].
      + assert (Hs' := CL Hs Ha). destruct (Hgr (next dyn s a)) as [G1 G2]. assert (Em : m = q (next dyn s a) (g (next dyn s a))) by (apply Rle_antisym; [rewrite <- EB; now apply G2|now apply MX]). rewrite Em.
        rewrite (@partial_ext n _ (fun k => follow g s a (S k)) (follow g (next dyn s a) (g (next dyn s a)))) by (intros; reflexivity). match goal with |- Rabs (?r + ?g * ?x - (?r + ?g * ?z)) <= _ => replace (r + g * x - (r + g * z)) with (g * (x - z)) by ring end. rewrite Rabs_mult, (Rabs_right gamma), Rmult_assoc by lra. apply Rmult_le_compat_l; [lra|]. now apply IH. }
  intros s a Hs Ha. split.
  - intros acts HL E0 eps He. destruct (@pow_small gamma M eps Hg PM He) as [N HN]. exists N. intros n Hn. specialize (UP n s acts Hs HL). rewrite E0 in UP. specialize (HN n Hn). lra.
  - exists (follow g s a). split; [|split; [reflexivity|]].
    + intros k. revert s a Hs Ha. induction k as [|k IH]; intros s a Hs Ha; cbn [follow]; auto. apply IH; [now apply CL|apply Hgr].
    + intros eps He. destruct (@pow_small gamma M eps Hg PM He) as [N HN]. exists N. intros n Hn. eapply Rle_trans; [now apply LO|]. auto.
Qed.
End Unique.
