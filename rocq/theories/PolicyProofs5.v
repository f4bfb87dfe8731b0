(** Proofs about policies, continued: the log-propensity of a sample, the mode, the metric kl_div_old. *)
From Coq Require Import List Lia Bool Arith Reals Lra.
From Verif Require Import PyCommon CommonProofs UtilsModel UtilsSpec UtilsProofs2 UtilsProofs3 WrappersProofs DistModel DistSpec DistProofs DistProofs2 LossModel LossSpec LossProofs QModel QProofs TDModel TDSpec TDProofs TDProofs2 TDProofs3 TracerModel TracerSpec PolicyModel PolicySpec PolicyProofs PolicyProofs2 PolicyProofs3 PolicyProofs4.
Import ListNotations.
Set Implicit Arguments.
Local Open Scope R_scope.

(** The largest of n numbers that sum to one, when each other is at most x times it. *)
Lemma largest_share : forall (p : list R) n a x, length p = n -> pos_distribution p -> (a < n)%nat -> 0 <= x -> (forall c, (c < n)%nat -> c <> a -> nth c p 0 <= x * nth a p 0) -> 1 - nth a p 0 <= INR (n - 1) * x.
Proof.
  intros p n a x L [P T] Ha Hx H. assert (Pa : 0 < nth a p 0) by (apply P, nth_In; lia).
  assert (A1 : nth a p 0 <= 1).
  { rewrite <- T. rewrite (@list_seq p n L) at 2.
    assert (E : total (map (fun c => if Nat.eqb c a then nth a p 0 else 0) (seq 0 n)) <= total (map (fun c => nth c p 0) (seq 0 n))).
    { apply total_le. intros c Hc. apply in_seq in Hc. destruct (Nat.eqb_spec c a); [subst; lra|]. assert (0 < nth c p 0) by (apply P, nth_In; lia). lra. }
    replace (total (map (fun c => if Nat.eqb c a then nth a p 0 else 0) (seq 0 n))) with (nth a p 0) in E; auto.
    replace (map (fun c => if Nat.eqb c a then nth a p 0 else 0) (seq 0 n)) with (map (fun c => nth a p 0 * (if Nat.eqb c a then 1 else 0)) (seq 0 n)) by (apply map_ext; intros c; destruct (Nat.eqb c a); lra). rewrite (@total_scal nat). rewrite total_indicator by apply seq_NoDup. destruct (in_dec Nat.eq_dec a (seq 0 n)) as [|N]; [lra|]. exfalso. apply N, in_seq. lia. }
  assert (B : total (map (fun c => nth c p 0) (seq 0 n)) <= total (map (fun c => x + (1 - x) * 0 + (if Nat.eqb c a then 1 else 0) * (nth a p 0 - x)) (seq 0 n))).
  { apply total_le. intros c Hc. apply in_seq in Hc. destruct (Nat.eqb_spec c a); [subst; lra|]. assert (nth c p 0 <= x * nth a p 0) by (apply H; [lia|auto]). assert (x * nth a p 0 <= x * 1) by (apply Rmult_le_compat_l; lra). lra. }
  rewrite <- (@list_seq p n L), T in B.
  replace (map (fun c => x + (1 - x) * 0 + (if Nat.eqb c a then 1 else 0) * (nth a p 0 - x)) (seq 0 n)) with (map (fun c => x + (nth a p 0 - x) * (if Nat.eqb c a then 1 else 0)) (seq 0 n)) in B by (apply map_ext; intros c; lra).
  rewrite (@total_plus nat (fun _ => x) (fun c => (nth a p 0 - x) * (if Nat.eqb c a then 1 else 0))) in B. rewrite (@total_scal nat) in B. rewrite total_indicator in B by apply seq_NoDup. destruct (in_dec Nat.eq_dec a (seq 0 n)) as [|N]; [|exfalso; apply N, in_seq; lia].
  rewrite (@total_const nat), seq_length in B. rewrite minus_INR by lia. change (INR 1) with 1. lra.
Qed.

Section Call.
Variables (n : nat) (tau : R) (z us gs : list R).
Hypothesis Hn : (1 <= n)%nat.
Hypothesis Ht : 0 < tau.
Hypothesis Lz : length z = n.
Hypothesis Lu : length us = n.
Hypothesis Ng : noise n gs.
Lemma boltz_ln : forall k, (k < n)%nat -> ln (nth k (softmax z) 0) = ln (boltzmann n z k).
Proof. intros k Hk. now rewrite (@softmax_boltzmann n) by auto. Qed.
Lemma Xrow_ratio : forall a c, (a < n)%nat -> (c < n)%nat -> nth c (Xrow tau z us) 0 = nth a (Xrow tau z us) 0 * exp (((gumbel (nth c us 0) + ln (boltzmann n z c)) - (gumbel (nth a us 0) + ln (boltzmann n z a))) / tau).
Proof.
  intros a c Ha Hc. unfold Xrow. set (y := map (fun x => x / tau) (zipw Rplus (map gumbel us) (log_softmax z))).
  assert (NE : z <> []) by (intros ->; cbn in Lz; lia).
  assert (LL : length (log_softmax z) = n) by (unfold log_softmax; now rewrite map_length).
  assert (LZ : length (zipw Rplus (map gumbel us) (log_softmax z)) = n) by (rewrite (@zip_seq Rplus _ _ n); [now rewrite map_length, seq_length|now rewrite map_length|auto]).
  assert (Y : forall k, (k < n)%nat -> nth k y 0 = (gumbel (nth k us 0) + ln (boltzmann n z k)) / tau).
  { intros k Hk. unfold y. rewrite (@nth_map0 (fun x => x / tau) (zipw Rplus (map gumbel us) (log_softmax z)) k 0) by lia. rewrite (@zip_seq Rplus _ _ n) by (auto; now rewrite map_length). rewrite nth_seq_map by auto. rewrite (@nth_map0 gumbel us k 0) by lia. rewrite nth_log_softmax by (auto; lia). now rewrite (@softmax_boltzmann n) by auto. }
  assert (Ly : length y = n) by (unfold y; now rewrite map_length).
  rewrite !nth_softmax by lia. assert (SP : 0 < sumexp y) by (apply sumexp_pos; intros E; rewrite E in Ly; cbn in Ly; lia).
  unfold Rdiv at 1 2. rewrite Rmult_assoc, (Rmult_comm (/ sumexp y)), <- Rmult_assoc. f_equal. rewrite <- exp_plus. f_equal. rewrite !Y by auto. field. lra.
Qed.
Lemma call_spec : exists a logp, policy_call n tau z us gs = Ok (a, logp) /\ (a < n)%nat /\
  (forall c, (c < n)%nat -> gumbel (nth c us 0) + ln (boltzmann n z c) <= gumbel (nth a us 0) + ln (boltzmann n z a)) /\
  (forall lo hi, (forall k, (k < n)%nat -> lo <= ln (boltzmann n z k) <= hi) -> lo <= logp <= hi /\
     forall gap, 0 <= gap -> (forall c, (c < n)%nat -> c <> a -> gumbel (nth c us 0) + ln (boltzmann n z c) + gap <= gumbel (nth a us 0) + ln (boltzmann n z a)) ->
       Rabs (logp - ln (boltzmann n z a)) <= INR (n - 1) * exp (- (gap / tau)) * (hi - lo)).
Proof.
  destruct (@call_eval n tau z us gs Hn Lz Lu Ng) as (a & E & M). exists a, (dot (Xrow tau z us) (log_softmax z)). split; [exact E|].
  destruct (@call_gumbel n tau z us a Hn Ht Lz Lu M) as [Ha G]. split; [exact Ha|]. split.
  - intros c Hc. rewrite <- !(@softmax_boltzmann n) by auto. now apply G.
  - intros lo hi B. assert (B' : forall k, (k < n)%nat -> lo <= ln (nth k (softmax z) 0) <= hi) by (intros k Hk; rewrite boltz_ln by auto; now apply B). split; [now apply (@call_bounds n tau z us)|].
    intros gap G0 GA. rewrite <- boltz_ln by auto. eapply Rle_trans; [now apply (@call_error n tau z us Hn Lz Lu a lo hi)|].
    assert (HL : 0 <= hi - lo) by (specialize (B a Ha); lra). apply Rmult_le_compat_r; auto.
    apply largest_share with (a := a); auto; [now apply Xrow_length|now apply Xrow_dist with (n := n)|left; apply exp_pos|].
    intros c Hc Ne. rewrite (@Xrow_ratio a c) by auto. rewrite Rmult_comm. apply Rmult_le_compat_r.
    + left. destruct (@Xrow_dist n tau z us Hn Lz Lu) as [P _]. apply P, nth_In. rewrite (@Xrow_length n); auto.
    + destruct (Req_dec (((gumbel (nth c us 0) + ln (boltzmann n z c)) - (gumbel (nth a us 0) + ln (boltzmann n z a))) / tau) (- (gap / tau))) as [->|D]; [lra|]. left. apply exp_increasing. specialize (GA c Hc Ne). assert (0 < / tau) by now apply Rinv_0_lt_compat.
      assert (((gumbel (nth c us 0) + ln (boltzmann n z c)) - (gumbel (nth a us 0) + ln (boltzmann n z a))) / tau <= - gap / tau) by (unfold Rdiv; apply Rmult_le_compat_r; lra). unfold Rdiv in *. lra.
Qed.
End Call.

Lemma call_wrong : forall n tau z i j gs, (1 <= n)%nat -> 0 < tau -> length z = n -> (i < n)%nat -> (j < n)%nat -> nth i z 0 <> nth j z 0 -> noise n gs ->
  exists us a logp, length us = n /\ (forall u, In u us -> 0 < u < 1) /\ policy_call n tau z us gs = Ok (a, logp) /\ logp < ln (boltzmann n z a) /\ 1 < exp (ln (boltzmann n z a) - logp).
Proof.
  intros n tau z i j gs Hn Ht Lz Hi Hj D Ng. destruct (@call_equal_draws n tau z gs Hn Ht Lz Ng) as (a & E & M).
  exists (repeat (1/2) n), a, (dot (Xrow tau z (repeat (1/2) n)) (log_softmax z)). split; [apply repeat_length|]. split; [intros u Hu; apply repeat_spec in Hu; subst; lra|]. split; [exact E|].
  assert (Q : exists k, (k < n)%nat /\ nth k z 0 < nth a z 0).
  { destruct M as [La Mx]. pose proof (Mx i) as M1. pose proof (Mx j) as M2. assert (K1 : nth i z 0 <= nth a z 0) by (apply M1; lia). assert (K2 : nth j z 0 <= nth a z 0) by (apply M2; lia). destruct (Rlt_dec (nth i z 0) (nth a z 0)); [exists i; auto|]. exists j. split; auto. lra. }
  destruct Q as (k & Hk & Lt). assert (Ha : (a < n)%nat) by (destruct M; lia).
  assert (S : dot (Xrow tau z (repeat (1/2) n)) (log_softmax z) < ln (boltzmann n z a)).
  { rewrite <- (@softmax_boltzmann n) by auto. apply (@call_strict n tau z (repeat (1/2) n)) with (i := k); auto. apply repeat_length. }
  split; [exact S|]. rewrite <- exp_0 at 1. apply exp_increasing. lra.
Qed.

(** * Mode and mean *)
Lemma maximal_optimal : forall n z a, length z = n -> maximal_at z a -> optimal n (boltzmann n z) a.
Proof.
  intros n z a L [La M]. split; [lia|]. intros c Hc. unfold boltzmann. apply Rmult_le_compat_r.
  - left. apply Rinv_0_lt_compat. destruct n; [lia|]. apply Rlt_le_trans with (exp (nth 0 z 0)); [apply exp_pos|]. cbn [seq map]. rewrite total_cons. assert (0 <= total (map (fun c => exp (nth c z 0)) (seq 1 n))); [|lra]. clear. generalize 1%nat. induction n; intros s; cbn [seq map]; [cbn; lra|]. rewrite total_cons. specialize (IHn (S s)). pose proof (exp_pos (nth s z 0)). lra.
  - assert (nth c z 0 <= nth a z 0) by (apply M; lia). destruct (Req_dec (nth c z 0) (nth a z 0)) as [->|]; [lra|]. left. apply exp_increasing. lra.
Qed.
Lemma mode_spec : forall n tau z gs, (1 <= n)%nat -> 0 < tau -> length z = n -> noise n gs -> exists a b, policy_mode n tau z gs = Ok a /\ optimal n (boltzmann n z) a /\ policy_mean n z gs = Ok b /\ optimal n (boltzmann n z) b.
Proof.
  intros n tau z gs Hn Ht L Ng. destruct (@mode_maximal n tau z gs Hn Ht L Ng) as (a & E & M). destruct (@mean_maximal n z gs Hn L Ng) as (b & E' & M'). exists a, b. split; auto. split; [now apply maximal_optimal|]. split; auto. now apply maximal_optimal.
Qed.
Lemma eps_greedy_mode : forall (St : Type) n eps tau (q : qfun St R) s gs, (1 <= n)%nat -> width n q -> 0 <= eps < 1 -> 0 < tau -> noise n gs ->
  exists z a b, eps_greedy n eps q s = Ok z /\ policy_mode n tau z gs = Ok a /\ optimal n (qval n q s) a /\ policy_mean n z gs = Ok b /\ optimal n (qval n q s) b.
Proof.
  intros St n eps tau q s gs Hn W He Ht Ng. unfold eps_greedy. rewrite q_row_ok by auto. cbn [bind]. set (z := eps_greedy_logits n eps (map (qval n q s) (seq 0 n))). assert (L : length z = n) by apply eps_logits_length.
  destruct (@mode_maximal n tau z gs Hn Ht L Ng) as (a & E & M). destruct (@mean_maximal n z gs Hn L Ng) as (b & E' & M'). exists z, a, b. split; auto. split; auto. split; [now apply (@eps_mode n eps)|]. split; auto. now apply (@eps_mode n eps).
Qed.
Lemma boltzmann_mode : forall (St : Type) n t tau (q : qfun St R) s gs, (1 <= n)%nat -> width n q -> 0 < t -> 0 < tau -> noise n gs ->
  exists z a b, boltzmann_policy n t q s = Ok z /\ policy_mode n tau z gs = Ok a /\ optimal n (qval n q s) a /\ policy_mean n z gs = Ok b /\ optimal n (qval n q s) b.
Proof.
  intros St n t tau q s gs Hn W Htm Ht Ng. unfold boltzmann_policy. rewrite q_row_ok by auto. cbn [bind]. set (z := boltzmann_logits t (map (qval n q s) (seq 0 n))). assert (L : length z = n) by (unfold z, boltzmann_logits; now rewrite !map_length, seq_length).
  assert (K : forall a, maximal_at z a -> optimal n (qval n q s) a).
  { intros a M. apply (@maximal_map (fun x => x / t)) in M; [apply (@maximal_seq n (qval n q s) a) in M; exact M|]. intros x y _ _. now apply div_mono. }
  destruct (@mode_maximal n tau z gs Hn Ht L Ng) as (a & E & M). destruct (@mean_maximal n z gs Hn L Ng) as (b & E' & M'). exists z, a, b. auto 10.
Qed.

(** * Boltzmann policy in terms of q *)
Lemma boltz_policy_spec : forall (St : Type) n t (q : qfun St R) s, (1 <= n)%nat -> width n q -> 0 < t ->
  exists z, boltzmann_policy n t q s = Ok z /\ length z = n /\
    (forall a, (a < n)%nat -> boltzmann n z a = exp (qval n q s a / t) / total (map (fun c => exp (qval n q s c / t)) (seq 0 n))) /\
    (forall a c, (a < n)%nat -> (c < n)%nat -> (boltzmann n z a < boltzmann n z c <-> qval n q s a < qval n q s c)) /\
    (forall a c, (a < n)%nat -> (c < n)%nat -> qval n q s a < qval n q s c -> boltzmann n z a <= t / (qval n q s c - qval n q s a)) /\
    (forall a D, (a < n)%nat -> (forall c, (c < n)%nat -> Rabs (qval n q s a - qval n q s c) <= D) -> exp (- (D / t)) / INR n <= boltzmann n z a <= exp (D / t) / INR n).
Proof.
  intros St n t q s Hn W Ht. unfold boltzmann_policy. rewrite q_row_ok by auto. cbn [bind]. set (z := boltzmann_logits t (map (qval n q s) (seq 0 n))). assert (L : length z = n) by (unfold z, boltzmann_logits; now rewrite !map_length, seq_length).
  assert (B : forall a, (a < n)%nat -> boltzmann n z a = exp (qval n q s a / t) / total (map (fun c => exp (qval n q s c / t)) (seq 0 n))) by (intros a Ha; rewrite <- (@softmax_boltzmann n) by auto; now apply boltz_softmax).
  exists z. split; auto. split; auto. split; auto. split; [|split].
  - intros a c Ha Hc. rewrite !B by auto. now apply (@boltz_order n t (qval n q s) a c).
  - intros a c Ha Hc Lt. rewrite B by auto. now apply boltz_cold.
  - intros a D Ha HD. rewrite B by auto. now apply boltz_hot.
Qed.
Lemma eps_policy_spec : forall (St : Type) n eps (q : qfun St R) s, (1 <= n)%nat -> width n q -> 0 <= eps <= 1 ->
  exists z, eps_greedy n eps q s = Ok z /\ length z = n /\ forall a, (a < n)%nat -> exists p, eps_greedy_probability n eps (qval n q s) a p /\
    boltzmann n z a = (p + smoothing_1e15) / (1 + INR n * smoothing_1e15) /\ Rabs (boltzmann n z a - p) <= INR n * smoothing_1e15 /\ 0 < boltzmann n z a.
Proof.
  intros St n eps q s Hn W He. destruct (@eps_greedy_spec St n eps q s Hn W He) as (z & E & L & P). exists z. split; auto. split; auto. intros a Ha. destruct (P a Ha) as (p & P1 & P2 & P3 & P4). exists p. rewrite (@softmax_boltzmann n) in P2, P3, P4 by auto. auto.
Qed.

(** * kl_div_old *)
Lemma kl_old_one : forall p q, 0 < p -> 0 < q -> kl_div_old [ln p] [ln q] = Ok (Some (p * (ln p - ln q))).
Proof. intros p q Hp Hq. rewrite (@kl_old_value _ _ 1) by (auto; lia). cbn [seq map nth]. rewrite total_cons. change (total []) with 0. change (INR 1) with 1. rewrite exp_ln by auto. do 2 f_equal. field. Qed.
Lemma kl_old_all : forall p q n, (1 <= n)%nat -> length p = n -> length q = n -> (forall x, In x p -> 0 < x) -> kl_div_old (map ln p) (map ln q) = Ok (Some (KL p q / INR n)).
Proof.
  intros p q n Hn Lp Lq P. rewrite (@kl_old_value _ _ n) by (auto; now rewrite map_length). do 3 f_equal. unfold KL, expect. rewrite Lp. f_equal. apply map_seq_ext. intros k Hk. rewrite (@nth_map0 ln p k 0), (@nth_map0 ln q k 0) by lia. rewrite exp_ln; [reflexivity|]. apply P, nth_In. lia.
Qed.
Lemma kl_old_same : forall l, l <> [] -> kl_div_old l l = Ok (Some 0).
Proof.
  intros l NE. assert (1 <= length l)%nat by (destruct l; [congruence|cbn; lia]). rewrite (@kl_old_value _ _ (length l)) by auto. do 2 f_equal. rewrite (@map_seq_ext _ (fun _ => 0 * 1) (length l)) by (intros; lra). rewrite (@total_scal nat (fun _ => 1) 0). unfold Rdiv. lra.
Qed.
