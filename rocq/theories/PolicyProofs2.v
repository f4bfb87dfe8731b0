(** Value-based policies, sampling and modes. *)
From Coq Require Import List Bool Arith Lia Reals Lra.
From Verif Require Import PyCommon CommonProofs UtilsModel UtilsSpec UtilsProofs2 UtilsProofs3 WrappersProofs DistModel DistSpec DistProofs LossModel LossSpec LossProofs QModel TDModel TDSpec TDProofs TDProofs2 TDProofs3 PolicyModel PolicySpec PolicyProofs.
Import ListNotations.
Set Implicit Arguments.
Local Open Scope R_scope.

Lemma q_row_ok : forall (St : Type) n (q : qfun St R) s, (1 <= n)%nat -> width n q -> q_row n q s = Ok (map (qval n q s) (seq 0 n)).
Proof. intros St n q s Hn W. unfold q_row. rewrite (@eval2_ok St n Hn q [s] W). cbn [bind]. rewrite (@check_ok2 St n (qval n q) [s]). reflexivity. Qed.

Lemma total_indicator : forall (M : list nat) a, NoDup M -> total (map (fun c => if Nat.eqb c a then 1 else 0) M) = if in_dec Nat.eq_dec a M then 1 else 0.
Proof.
  intros M a ND. induction ND as [|x l NI ND IH]; [reflexivity|]. cbn [map]. rewrite total_cons, IH. destruct (Nat.eqb_spec x a) as [->|N].
  - destruct (in_dec Nat.eq_dec a l); [contradiction|]. destruct (in_dec Nat.eq_dec a (a :: l)) as [_|C]; [lra|]. exfalso. apply C. now left.
  - destruct (in_dec Nat.eq_dec a l) as [I|I]; destruct (in_dec Nat.eq_dec a (x :: l)) as [J|J]; try lra; [exfalso; apply J; now right|destruct J; congruence].
Qed.
Lemma greedy_prob : forall n h a, (1 <= n)%nat -> (a < n)%nat -> exists M, NoDup M /\ M <> [] /\ (forall a, In a M <-> (a < n)%nat /\ forall c, (c < n)%nat -> h c <= h a) /\
  nth a (greedy_mix (map h (seq 0 n))) 0 = if in_dec Nat.eq_dec a M then 1 / INR (length M) else 0.
Proof.
  intros n h a Hn Ha. destruct (@greedy_is_avg n Hn h (fun c => if Nat.eqb c a then 1 else 0)) as [M [ND [NE [HM E]]]]. exists M. repeat split; auto; try apply HM; auto.
  rewrite dot_seq in E by now rewrite greedy_length, !seq_len. rewrite greedy_length, seq_len in E. rewrite (@total_ext _ _ (fun k => if Nat.eqb k a then nth k (greedy_mix (map h (seq 0 n))) 0 else 0)) in E.
  - rewrite (@total_single n a (fun k => nth k (greedy_mix (map h (seq 0 n))) 0) Ha) in E. rewrite E. unfold mean. rewrite map_length, total_indicator by auto. destruct (in_dec Nat.eq_dec a M); [reflexivity|unfold Rdiv; lra].
  - intros k Hk. apply in_seq in Hk. rewrite nth_seq_map by lia. destruct (Nat.eqb k a); lra.
Qed.
Lemma eps15_eq : eps15 = smoothing_1e15. Proof. unfold eps15, smoothing_1e15. f_equal. cbn [pow]. lra. Qed.
Lemma eps15_pos : 0 < eps15. Proof. unfold eps15. apply Rinv_0_lt_compat. lra. Qed.
Lemma mix_length : forall n eps h, length (eps_greedy_mix n eps (map h (seq 0 n))) = n.
Proof. intros. unfold eps_greedy_mix. now rewrite map_length, greedy_length, seq_len. Qed.
Lemma mix_nth : forall n eps h a, (a < n)%nat -> nth a (eps_greedy_mix n eps (map h (seq 0 n))) 0 = nth a (greedy_mix (map h (seq 0 n))) 0 * (1 - eps) + eps / INR n.
Proof. intros. unfold eps_greedy_mix. now rewrite (@nth_map0 (fun g => g * (1 - eps) + eps / INR n) _ a 0) by (rewrite greedy_length, seq_len; auto). Qed.
Lemma mix_total : forall n eps h, (1 <= n)%nat -> total (eps_greedy_mix n eps (map h (seq 0 n))) = 1.
Proof.
  intros n eps h Hn. assert (NE : map h (seq 0 n) <> []) by (destruct n; [lia|discriminate]). destruct (greedy_dist NE) as [_ T]. unfold eps_greedy_mix. set (g := greedy_mix (map h (seq 0 n))) in *. assert (L : length g = n) by (unfold g; now rewrite greedy_length, seq_len).
  rewrite (@total_plus _ (fun x => x * (1 - eps)) (fun _ => eps / INR n) g). rewrite (@total_ext _ (fun x => x * (1 - eps)) (fun x => (1 - eps) * x)) by (intros; lra). rewrite total_scal, map_id, T. rewrite total_const, L. field. apply not_0_INR. lia.
Qed.
Lemma mix_prob : forall n eps h a, (1 <= n)%nat -> (a < n)%nat -> 0 <= eps <= 1 -> let p := nth a (eps_greedy_mix n eps (map h (seq 0 n))) 0 in eps_greedy_probability n eps h a p /\ 0 <= p <= 1.
Proof.
  intros n eps h a Hn Ha He p. assert (B : forall k, (k < n)%nat -> 0 <= nth k (greedy_mix (map h (seq 0 n))) 0).
  { intros k Hk. assert (NE : map h (seq 0 n) <> []) by (destruct n; [lia|discriminate]). destruct (greedy_dist NE) as [P _]. apply P. apply nth_In. now rewrite greedy_length, seq_len. }
  assert (N0 : 0 < INR n) by (apply lt_0_INR; lia). assert (PN : forall k, (k < n)%nat -> 0 <= nth k (eps_greedy_mix n eps (map h (seq 0 n))) 0).
  { intros k Hk. rewrite mix_nth by auto. specialize (B k Hk). assert (0 <= eps / INR n) by (apply Rmult_le_pos; [lra|left; now apply Rinv_0_lt_compat]). assert (0 <= nth k (greedy_mix (map h (seq 0 n))) 0 * (1 - eps)) by (apply Rmult_le_pos; lra). lra. }
  split.
  - destruct (@greedy_prob n h a Hn Ha) as [M [ND [NE [HM E]]]]. exists M. repeat split; auto; try apply HM; auto. unfold p. rewrite mix_nth by auto. rewrite E. destruct (in_dec Nat.eq_dec a M); [left|right]; split; auto; unfold Rdiv; lra.
  - split; [now apply PN|]. rewrite <- (@mix_total n eps h Hn). rewrite (@list_seq (eps_greedy_mix n eps (map h (seq 0 n))) n) by apply mix_length. apply (@total_in_le nat (fun k => nth k (eps_greedy_mix n eps (map h (seq 0 n))) 0)); [intros k Hk; apply in_seq in Hk; apply PN; lia|apply in_seq; lia].
Qed.
Lemma eps_logits_length : forall n eps h, length (eps_greedy_logits n eps (map h (seq 0 n))) = n.
Proof. intros. unfold eps_greedy_logits. now rewrite map_length, mix_length. Qed.
Lemma mix_nonneg : forall n eps h x, (1 <= n)%nat -> 0 <= eps <= 1 -> In x (eps_greedy_mix n eps (map h (seq 0 n))) -> 0 <= x.
Proof. intros n eps h x Hn He Hx. apply (In_nth _ _ 0) in Hx. destruct Hx as [k [Hk <-]]. rewrite mix_length in Hk. apply (@mix_prob n eps h k Hn Hk He). Qed.
Lemma eps_softmax : forall n eps h a, (1 <= n)%nat -> (a < n)%nat -> 0 <= eps <= 1 ->
  nth a (softmax (eps_greedy_logits n eps (map h (seq 0 n)))) 0 = (nth a (eps_greedy_mix n eps (map h (seq 0 n))) 0 + smoothing_1e15) / (1 + INR n * smoothing_1e15).
Proof.
  intros n eps h a Hn Ha He. rewrite nth_softmax by (rewrite eps_logits_length; auto). rewrite <- eps15_eq. pose proof eps15_pos as P. f_equal.
  - unfold eps_greedy_logits. rewrite (@nth_map0 (fun p => ln (p + eps15)) _ a 0) by (rewrite mix_length; auto). rewrite exp_ln; auto. pose proof (@mix_prob n eps h a Hn Ha He) as [_ B]. lra.
  - f_equal. unfold sumexp, eps_greedy_logits. rewrite map_map, rsum_total. rewrite (@total_ext _ _ (fun p => p + eps15)).
    + rewrite (@total_plus _ (fun p => p) (fun _ => eps15)), map_id, mix_total, total_const, mix_length by auto. lra.
    + intros x Hx. apply exp_ln. pose proof (@mix_nonneg n eps h x Hn He Hx). lra.
Qed.
Lemma smooth_close : forall p c N, 0 <= p <= 1 -> 0 < c -> 1 <= N -> Rabs ((p + c) / (1 + N * c) - p) <= N * c.
Proof.
  intros p c N Hp Hc HN. assert (D : 1 <= 1 + N * c) by (assert (0 <= N * c) by (apply Rmult_le_pos; lra); lra).
  replace ((p + c) / (1 + N * c) - p) with (c * (1 - N * p) / (1 + N * c)) by (field; lra). unfold Rdiv. rewrite !Rabs_mult. rewrite (Rabs_right c), (Rabs_right (/ _)) by (try (left; apply Rinv_0_lt_compat); lra).
  assert (A : Rabs (1 - N * p) <= N) by (apply Rabs_le; assert (0 <= N * p <= N) by (split; [apply Rmult_le_pos; lra|rewrite <- (Rmult_1_r N) at 2; apply Rmult_le_compat_l; lra]); lra).
  assert (I : 0 < / (1 + N * c) <= 1) by (split; [apply Rinv_0_lt_compat; lra|rewrite <- Rinv_1; apply Rinv_le_contravar; lra]).
  assert (Q : 0 <= c * Rabs (1 - N * p)) by (apply Rmult_le_pos; [lra|apply Rabs_pos]). assert (c * Rabs (1 - N * p) <= c * N) by (apply Rmult_le_compat_l; lra). assert (c * Rabs (1 - N * p) * / (1 + N * c) <= c * Rabs (1 - N * p) * 1) by (apply Rmult_le_compat_l; lra). lra.
Qed.
Lemma eps_greedy_spec : forall (St : Type) n eps (q : qfun St R) s, (1 <= n)%nat -> width n q -> 0 <= eps <= 1 ->
  exists z, eps_greedy n eps q s = Ok z /\ length z = n /\ forall a, (a < n)%nat -> exists p, eps_greedy_probability n eps (qval n q s) a p /\
    nth a (softmax z) 0 = (p + smoothing_1e15) / (1 + INR n * smoothing_1e15) /\ Rabs (nth a (softmax z) 0 - p) <= INR n * smoothing_1e15 /\ 0 < nth a (softmax z) 0.
Proof.
  intros St n eps q s Hn W He. unfold eps_greedy. rewrite (@q_row_ok St n q s Hn W). cbn [bind]. eexists. split; [reflexivity|]. split; [apply eps_logits_length|]. intros a Ha.
  destruct (@mix_prob n eps (qval n q s) a Hn Ha He) as [P B]. eexists. split; [exact P|]. pose proof (@eps_softmax n eps (qval n q s) a Hn Ha He) as E. split; [exact E|]. pose proof eps15_pos as P15. rewrite eps15_eq in P15. assert (N1 : 1 <= INR n) by (change 1 with (INR 1); apply le_INR; lia). split.
  - rewrite E. apply smooth_close; auto.
  - rewrite E. apply Rmult_lt_0_compat; [lra|]. apply Rinv_0_lt_compat. assert (0 <= INR n * smoothing_1e15) by (apply Rmult_le_pos; lra). lra.
Qed.

(** * Boltzmann *)
Lemma boltz_softmax : forall n t (h : nat -> R) a, (1 <= n)%nat -> (a < n)%nat -> nth a (softmax (boltzmann_logits t (map h (seq 0 n)))) 0 = exp (h a / t) / total (map (fun c => exp (h c / t)) (seq 0 n)).
Proof.
  intros n t h a Hn Ha. unfold boltzmann_logits. rewrite map_map. rewrite nth_softmax by (rewrite seq_len; auto). rewrite nth_seq_map by auto. now rewrite (@sumexp_total nat (fun x => h x / t) (seq 0 n)).
Qed.
Lemma boltz_den_pos : forall n t (h : nat -> R), (1 <= n)%nat -> 0 < total (map (fun c => exp (h c / t)) (seq 0 n)).
Proof. intros n t h Hn. rewrite <- (@sumexp_total nat (fun c => h c / t) (seq 0 n)). apply sumexp_pos. destruct n; [lia|discriminate]. Qed.
Lemma boltz_ratio : forall n t (h : nat -> R) a c, (1 <= n)%nat -> (a < n)%nat -> (c < n)%nat -> let p := fun a => exp (h a / t) / total (map (fun c => exp (h c / t)) (seq 0 n)) in p a = p c * exp ((h a - h c) / t).
Proof.
  intros n t h a c Hn Ha Hc p. unfold p. pose proof (@boltz_den_pos n t h Hn). replace (h a / t) with (h c / t + (h a - h c) / t) by (unfold Rdiv; lra). rewrite exp_plus. unfold Rdiv. lra.
Qed.
Lemma boltz_order : forall n t (h : nat -> R) a c, (1 <= n)%nat -> 0 < t -> let p := fun a => exp (h a / t) / total (map (fun c => exp (h c / t)) (seq 0 n)) in (p a < p c <-> h a < h c).
Proof.
  intros n t h a c Hn Ht p. unfold p. pose proof (@boltz_den_pos n t h Hn) as D. assert (I := Rinv_0_lt_compat _ D). assert (It := Rinv_0_lt_compat _ Ht). split; intros H.
  - apply Rmult_lt_reg_r in H; auto. apply exp_lt_inv in H. apply Rmult_lt_reg_r in H; auto.
  - apply Rmult_lt_compat_r; auto. apply exp_increasing. apply Rmult_lt_compat_r; auto.
Qed.
Lemma exp_neg_bound : forall x, 0 < x -> exp (- x) <= / x.
Proof.
  intros x Hx. rewrite exp_Ropp. apply Rinv_le_contravar; auto. pose proof (exp_ineq1 x ltac:(lra)). lra.
Qed.
Lemma boltz_cold : forall n t (h : nat -> R) a c, (1 <= n)%nat -> 0 < t -> (a < n)%nat -> (c < n)%nat -> h a < h c ->
  exp (h a / t) / total (map (fun c => exp (h c / t)) (seq 0 n)) <= t / (h c - h a).
Proof.
  intros n t h a c Hn Ht Ha Hc Hl. pose proof (@boltz_den_pos n t h Hn) as D. assert (LE : exp (h c / t) <= total (map (fun c => exp (h c / t)) (seq 0 n))) by (apply (@total_in_le nat (fun c => exp (h c / t))); [intros; left; apply exp_pos|apply in_seq; lia]).
  apply Rle_trans with (exp (h a / t) / exp (h c / t)).
  - apply Rmult_le_compat_l; [left; apply exp_pos|]. apply Rinv_le_contravar; auto. apply exp_pos.
  - unfold Rdiv at 1. rewrite <- exp_Ropp, <- exp_plus. replace (h a / t + - (h c / t)) with (- ((h c - h a) / t)) by (unfold Rdiv; lra). eapply Rle_trans; [apply exp_neg_bound; apply Rmult_lt_0_compat; [lra|now apply Rinv_0_lt_compat]|].
    right. field. lra.
Qed.
Lemma boltz_hot : forall n t (h : nat -> R) a D, (1 <= n)%nat -> 0 < t -> (a < n)%nat -> (forall c, (c < n)%nat -> Rabs (h a - h c) <= D) ->
  exp (- (D / t)) / INR n <= exp (h a / t) / total (map (fun c => exp (h c / t)) (seq 0 n)) <= exp (D / t) / INR n.
Proof.
  intros n t h a D Hn Ht Ha HD. pose proof (@boltz_den_pos n t h Hn) as DP. assert (N0 : 0 < INR n) by (apply lt_0_INR; lia). assert (It := Rinv_0_lt_compat _ Ht). set (T := total (map (fun c => exp (h c / t)) (seq 0 n))) in *.
  assert (B : forall c, (c < n)%nat -> exp (- (D / t)) * exp (h c / t) <= exp (h a / t) <= exp (D / t) * exp (h c / t)).
  { intros c Hc. specialize (HD c Hc). pose proof (Rle_abs (h a - h c)). pose proof (Rle_abs (- (h a - h c))) as R2. rewrite Rabs_Ropp in R2. rewrite <- !exp_plus. unfold Rdiv. split; apply exp_le; [replace (- (D * / t) + h c * / t) with ((h c - D) * / t) by lra|replace (D * / t + h c * / t) with ((h c + D) * / t) by lra]; apply Rmult_le_compat_r; lra. }
  assert (S1 : exp (- (D / t)) * T <= INR n * exp (h a / t)). { unfold T. rewrite <- total_scal. replace (INR n * exp (h a / t)) with (total (map (fun _ : nat => exp (h a / t)) (seq 0 n))) by (rewrite total_const, seq_length; lra). apply total_le. intros c Hc. apply in_seq in Hc. apply B. lia. }
  assert (S2 : INR n * exp (h a / t) <= exp (D / t) * T). { unfold T. rewrite <- total_scal. replace (INR n * exp (h a / t)) with (total (map (fun _ : nat => exp (h a / t)) (seq 0 n))) by (rewrite total_const, seq_length; lra). apply total_le. intros c Hc. apply in_seq in Hc. apply B. lia. }
  split; apply Rmult_le_reg_r with (INR n * T); try (apply Rmult_lt_0_compat; auto); unfold Rdiv.
  - replace (exp (- (D * / t)) * / INR n * (INR n * T)) with (exp (- (D / t)) * T) by (unfold Rdiv; field; lra). replace (exp (h a * / t) * / T * (INR n * T)) with (INR n * exp (h a / t)) by (unfold Rdiv; field; lra). exact S1.
  - replace (exp (D * / t) * / INR n * (INR n * T)) with (exp (D / t) * T) by (unfold Rdiv; field; lra). replace (exp (h a * / t) * / T * (INR n * T)) with (INR n * exp (h a / t)) by (unfold Rdiv; field; lra). exact S2.
Qed.

(** * Mode and sample *)
Lemma maximal_softmax : forall z i, maximal_at (softmax z) i -> maximal_at z i.
Proof.
  intros z i [Hi HM]. rewrite softmax_length in *. split; auto. intros k Hk. specialize (HM k Hk). rewrite !nth_softmax in HM by auto. assert (NE : z <> []) by (intros ->; cbn in Hi; lia). pose proof (sumexp_pos NE) as P.
  destruct (Rle_dec (nth k z 0) (nth i z 0)) as [L|L]; auto. exfalso. assert (exp (nth i z 0) < exp (nth k z 0)) by (apply exp_increasing; lra). apply Rmult_le_reg_r in HM; [lra|now apply Rinv_0_lt_compat].
Qed.
Lemma maximal_map : forall (f : R -> R) z i, (forall x y, In x z -> In y z -> f x <= f y -> x <= y) -> maximal_at (map f z) i -> maximal_at z i.
Proof.
  intros f z i Hf [Hi HM]. rewrite map_length in *. split; auto. intros k Hk. specialize (HM k Hk). rewrite !(@nth_map_any _ _ f z _ 0 0) in HM by auto. apply Hf; auto; now apply nth_In.
Qed.
Lemma div_mono : forall t x y, 0 < t -> x / t <= y / t -> x <= y.
Proof. intros t x y Ht H. apply Rmult_le_reg_r in H; auto. now apply Rinv_0_lt_compat. Qed.
Lemma post_maximal : forall n X gs, (1 <= n)%nat -> length X = n -> noise n gs -> exists a, cat_post n X gs = Ok a /\ maximal_at X a.
Proof.
  intros n X gs Hn L [Lg Hg]. unfold cat_post. rewrite L, Nat.eqb_refl. apply argmax_spec; auto; [intros ->; cbn in L; lia|lia].
Qed.
Lemma mode_maximal : forall n tau z gs, (1 <= n)%nat -> 0 < tau -> length z = n -> noise n gs -> exists a, policy_mode n tau z gs = Ok a /\ maximal_at z a.
Proof.
  intros n tau z gs Hn Ht L N. unfold policy_mode, cat_mode, check_n. rewrite L, Nat.eqb_refl. cbn [bind]. destruct (@post_maximal n (softmax (map (fun x => x / tau) (log_softmax z))) gs Hn) as [a [E M]]; auto; [now rewrite softmax_length, map_length, log_softmax_length|].
  exists a. split; auto. apply maximal_softmax in M. apply maximal_map in M; [|intros x y _ _; now apply div_mono]. unfold log_softmax in M. apply maximal_map in M; auto. intros; lra.
Qed.
Lemma mean_maximal : forall n z gs, (1 <= n)%nat -> length z = n -> noise n gs -> exists a, policy_mean n z gs = Ok a /\ maximal_at z a.
Proof.
  intros n z gs Hn L N. unfold policy_mean, cat_mean, check_n. rewrite L, Nat.eqb_refl. cbn [bind]. destruct (@post_maximal n (softmax z) gs Hn) as [a [E M]]; auto; [now rewrite softmax_length|]. exists a. split; auto. now apply maximal_softmax.
Qed.
Lemma maximal_seq : forall n (h : nat -> R) a, maximal_at (map h (seq 0 n)) a <-> (a < n)%nat /\ forall c, (c < n)%nat -> h c <= h a.
Proof.
  intros n h a. unfold maximal_at. rewrite seq_len. split; intros [Ha H]; split; auto; intros c Hc; specialize (H c Hc); rewrite ?nth_seq_map in * by auto; auto.
Qed.
Lemma eps_mode : forall n eps (h : nat -> R) a, (1 <= n)%nat -> 0 <= eps < 1 -> maximal_at (eps_greedy_logits n eps (map h (seq 0 n))) a -> (a < n)%nat /\ forall c, (c < n)%nat -> h c <= h a.
Proof.
  intros n eps h a Hn He M. unfold eps_greedy_logits in M. pose proof eps15_pos as P. apply maximal_map in M.
  - assert (Ha : (a < n)%nat) by (destruct M as [Ha _]; now rewrite mix_length in Ha). destruct (@rowmax_is n Hn h) as [[m [Hm Em]] HM]. destruct (@greedy_prob n h a Hn Ha) as [M1 [ND1 [NE1 [C1 E1]]]]. destruct (@greedy_prob n h m Hn Hm) as [M2 [ND2 [NE2 [C2 E2]]]].
    assert (Im : In m M2) by (apply C2; split; auto; intros c Hc; rewrite Em; now apply HM). destruct (in_dec Nat.eq_dec m M2) as [_|X]; [|contradiction]. destruct M as [_ M]. specialize (M m). rewrite mix_length in M. specialize (M Hm). rewrite !mix_nth in M by auto. rewrite E1, E2 in M.
    destruct (in_dec Nat.eq_dec a M1) as [I|I]; [now apply C1|]. exfalso. assert (0 < 1 / INR (length M2)) by (apply Rmult_lt_0_compat; [lra|apply Rinv_0_lt_compat, lt_0_INR; destruct M2; [congruence|cbn; lia]]). assert (0 < 1 / INR (length M2) * (1 - eps)) by (apply Rmult_lt_0_compat; lra). lra.
  - intros x y Hx Hy H. assert (X : 0 <= x) by (apply (@mix_nonneg n eps h x Hn ltac:(lra) Hx)). assert (Y : 0 <= y) by (apply (@mix_nonneg n eps h y Hn ltac:(lra) Hy)). destruct (Rle_dec x y); auto. exfalso. assert (ln (y + eps15) < ln (x + eps15)) by (apply ln_increasing; lra). lra.
Qed.

(** Sampling: the action maximises gumbel + log pi; the reported log-propensity is the X-average of log pi. *)
Section Call.
Variables (n : nat) (tau : R) (z us gs : list R).
Hypothesis Hn : (1 <= n)%nat.
Hypothesis Ht : 0 < tau.
Hypothesis Lz : length z = n.
Hypothesis Lu : length us = n.
Hypothesis Ng : noise n gs.
Definition Xrow : list R := softmax (map (fun x => x / tau) (zipw Rplus (map gumbel us) (log_softmax z))).
Lemma Xrow_length : length Xrow = n.
Proof. unfold Xrow. rewrite softmax_length, map_length, zipw_length; rewrite ?map_length, ?log_softmax_length; lia. Qed.
Lemma Xrow_dist : pos_distribution Xrow.
Proof. unfold Xrow. apply softmax_dist. intros E. pose proof Xrow_length as L. unfold Xrow in L. rewrite E in L. cbn in L. lia. Qed.
Lemma call_eval : exists a, policy_call n tau z us gs = Ok (a, dot Xrow (log_softmax z)) /\ maximal_at Xrow a.
Proof.
  unfold policy_call, cat_sample, check_n. rewrite Lz, Nat.eqb_refl. cbn [bind]. fold Xrow. unfold cat_log_proba, check_n. rewrite Xrow_length, Lz, Nat.eqb_refl. cbn [bind]. destruct (@post_maximal n Xrow gs Hn Xrow_length Ng) as [a [E M]]. rewrite E. cbn [bind]. eauto.
Qed.
Lemma logpi_nth : forall k, (k < n)%nat -> nth k (log_softmax z) 0 = ln (nth k (softmax z) 0).
Proof. intros k Hk. apply nth_log_softmax; [intros E; rewrite E in Lz; cbn in Lz; lia|lia]. Qed.
Lemma call_bounds : forall lo hi, (forall k, (k < n)%nat -> lo <= ln (nth k (softmax z) 0) <= hi) -> lo <= dot Xrow (log_softmax z) <= hi.
Proof.
  intros lo hi H. rewrite dot_seq by (rewrite Xrow_length, log_softmax_length; auto). rewrite Xrow_length. destruct Xrow_dist as [P T]. rewrite (@list_seq Xrow n Xrow_length) in T.
  assert (B : forall k, (k < n)%nat -> 0 < nth k Xrow 0) by (intros k Hk; apply P, nth_In; now rewrite Xrow_length).
  split.
  - replace lo with (total (map (fun k => lo * nth k Xrow 0) (seq 0 n))) by (rewrite total_scal, T; lra). apply total_le. intros k Hk. apply in_seq in Hk. rewrite logpi_nth by lia. specialize (H k ltac:(lia)). specialize (B k ltac:(lia)). rewrite Rmult_comm. apply Rmult_le_compat_l; lra.
  - replace hi with (total (map (fun k => hi * nth k Xrow 0) (seq 0 n))) by (rewrite total_scal, T; lra). apply total_le. intros k Hk. apply in_seq in Hk. rewrite logpi_nth by lia. specialize (H k ltac:(lia)). specialize (B k ltac:(lia)). rewrite (Rmult_comm hi). apply Rmult_le_compat_l; lra.
Qed.
Lemma call_error : forall a lo hi, (a < n)%nat -> (forall k, (k < n)%nat -> lo <= ln (nth k (softmax z) 0) <= hi) -> Rabs (dot Xrow (log_softmax z) - ln (nth a (softmax z) 0)) <= (1 - nth a Xrow 0) * (hi - lo).
Proof.
  intros a lo hi Ha H. rewrite dot_seq by (rewrite Xrow_length, log_softmax_length; auto). rewrite Xrow_length. destruct Xrow_dist as [P T]. rewrite (@list_seq Xrow n Xrow_length) in T. set (L := fun k => ln (nth k (softmax z) 0)).
  assert (B : forall k, (k < n)%nat -> 0 < nth k Xrow 0) by (intros k Hk; apply P, nth_In; now rewrite Xrow_length).
  replace (total (map (fun k => nth k Xrow 0 * nth k (log_softmax z) 0) (seq 0 n)) - ln (nth a (softmax z) 0)) with (total (map (fun k => nth k Xrow 0 * (L k - L a)) (seq 0 n))).
  - set (w := fun k => (if Nat.eqb k a then 0 else nth k Xrow 0)). assert (W : total (map w (seq 0 n)) = 1 - nth a Xrow 0).
    { rewrite <- T. rewrite <- (@total_single n a (fun k => nth k Xrow 0) Ha). rewrite <- total_minus. apply total_ext. intros k _. unfold w. destruct (Nat.eqb k a); lra. }
    assert (K : forall k, (k < n)%nat -> - (w k * (hi - lo)) <= nth k Xrow 0 * (L k - L a) <= w k * (hi - lo)).
    { intros k Hk. unfold w. destruct (Nat.eqb_spec k a) as [->|N]; [split; nra|]. pose proof (H k Hk) as Hk'. pose proof (H a Ha) as Ha'. fold (L k) in Hk'. fold (L a) in Ha'. specialize (B k Hk). split; [|apply Rmult_le_compat_l; lra]. rewrite <- Ropp_mult_distr_r_reverse. apply Rmult_le_compat_l; lra. }
    apply Rabs_le. split.
    + replace (- ((1 - nth a Xrow 0) * (hi - lo))) with (total (map (fun k => - (hi - lo) * w k) (seq 0 n))) by (rewrite total_scal, W; lra). apply total_le. intros k Hk. apply in_seq in Hk. specialize (K k ltac:(lia)). lra.
    + replace ((1 - nth a Xrow 0) * (hi - lo)) with (total (map (fun k => (hi - lo) * w k) (seq 0 n))) by (rewrite total_scal, W; lra). apply total_le. intros k Hk. apply in_seq in Hk. specialize (K k ltac:(lia)). lra.
  - rewrite (@total_ext _ _ (fun k => nth k Xrow 0 * nth k (log_softmax z) 0 - L a * nth k Xrow 0)) by (intros k Hk; apply in_seq in Hk; rewrite logpi_nth by lia; unfold L; lra). rewrite total_minus, total_scal, T. unfold L. lra.
Qed.
End Call.
