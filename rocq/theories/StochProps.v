(** Properties C54, C82-C88: stochastic value functions, SuccessorStateQ, RandomPolicy, ModelUpdater. *)
From Coq Require Import List Lia Bool Arith Reals Lra Permutation.
From Verif Require Import PyCommon CommonProofs UtilsModel UtilsSpec UtilsProofs2 UtilsProofs3 WrappersProofs DistModel DistSpec DistProofs DistProofs2 DistProofs3 LossModel LossSpec LossProofs LossProps QModel QProofs TDModel TDSpec TDProofs TDProofs2 TDProofs3 PolicySpec PolicyProofs StochModel StochSpec StochProofs StochProofs2.
Import ListNotations.
Local Open Scope R_scope.

(** ** C54: without a value transform mean, mode and samples lie inside value_range; the mean is the expected bin centre. *)
Theorem C54_identity : forall n lo hi d z tau us, stochastic_v None n (RangePair lo hi) = Ok d -> (1 <= n)%nat -> length z = n -> length us = n -> 0 < tau ->
  exists m md x, sv_mean d z = Ok m /\ sv_mode tau d z = Ok md /\ sv_sample tau us n lo hi z = Ok x /\ lo < m < hi /\ lo < md < hi /\ lo < x < hi /\ m = expect (softmax z) (centre n lo hi).
Proof.
  intros n lo hi d z tau us E Hn Hz Hu Ht. unfold stochastic_v, check_value_range in E. destruct (Rlt_dec lo hi) as [Hl|]; [|discriminate]. injection E as <-. now apply interval_outputs.
Qed.
Print Assumptions C54_identity.
Example C54_identity_ex : stochastic_v None 3 (RangePair (-1) 1) = Ok (DInterval 3 (-1) 1).
Proof. unfold stochastic_v, check_value_range. destruct (Rlt_dec (-1) 1); [reflexivity|lra]. Qed.
(** C54: mode and samples exactly: averages of the bin centres with weights exp(z/tau), for samples with Gumbel noise added to the logits. *)
Lemma softmax_less : forall z c, softmax (map (fun x => x - c) z) = softmax z.
Proof.
  intros z c. unfold softmax, sumexp. rewrite !map_map. assert (E : rsum (map (fun x => exp (x - c)) z) = exp (- c) * rsum (map exp z)).
  { rewrite <- rsum_map_scal. f_equal. rewrite ?map_map. apply map_ext. intros x. unfold Rminus. rewrite exp_plus. ring. }
  rewrite E. apply map_ext. intros x. unfold Rminus. rewrite exp_plus. unfold Rdiv. rewrite Rinv_mult. assert (Z := exp_pos (- c)). set (e := exp (- c)) in *. match goal with |- _ = _ * ?i => transitivity (exp x * (e * / e) * i); [ring|] end. rewrite Rinv_r by lra. ring.
Qed.
Lemma expect_softmax : forall n w h, length w = n -> expect (softmax w) h = total (map (fun k => exp (nth k w 0) * h k) (seq 0 n)) / total (map (fun k => exp (nth k w 0)) (seq 0 n)).
Proof.
  intros n w h L. unfold expect. rewrite softmax_length, L. assert (S : sumexp w = total (map (fun k => exp (nth k w 0)) (seq 0 n))).
  { unfold sumexp. rewrite rsum_total. f_equal. subst n. clear h. induction w as [|x w IH]; [reflexivity|]. cbn [length seq map nth]. f_equal. rewrite <- seq_shift, map_map. exact IH. }
  rewrite <- S. unfold Rdiv at 1. rewrite Rmult_comm, <- total_scal. f_equal. apply map_ext_in. intros k Hk. apply in_seq in Hk. rewrite nth_softmax by lia. unfold Rdiv. ring.
Qed.
Theorem C54_exact : forall n lo hi d z tau us, stochastic_v None n (RangePair lo hi) = Ok d -> (1 <= n)%nat -> length z = n -> length us = n -> 0 < tau ->
  sv_mode tau d z = Ok (total (map (fun k => exp (nth k z 0 / tau) * centre n lo hi k) (seq 0 n)) / total (map (fun k => exp (nth k z 0 / tau)) (seq 0 n))) /\
  sv_sample tau us n lo hi z = Ok (total (map (fun k => exp ((nth k z 0 - ln (- ln (nth k us 0))) / tau) * centre n lo hi k) (seq 0 n)) / total (map (fun k => exp ((nth k z 0 - ln (- ln (nth k us 0))) / tau)) (seq 0 n))).
Proof.
  intros n lo hi d z tau us E Hn Hz Hu Ht. unfold stochastic_v, check_value_range in E. destruct (Rlt_dec lo hi) as [Hl|]; [|discriminate]. injection E as <-. cbn [interval_dist fst snd sv_mode]. unfold sv_sample, cat_mode, cat_sample. rewrite (check_ok _ Hz). cbn [bind].
  set (c := ln (sumexp z) / tau).
  assert (A : map (fun x => x / tau) (log_softmax z) = map (fun x => x - c) (map (fun x => x / tau) z)) by (unfold log_softmax; rewrite !map_map; apply map_ext; intros x; unfold c, Rdiv; ring).
  assert (B : map (fun x => x / tau) (zipw Rplus (map gumbel us) (log_softmax z)) = map (fun x => x - c) (map (fun k => (nth k z 0 - ln (- ln (nth k us 0))) / tau) (seq 0 n))).
  { rewrite map_map. apply (nth_ext _ _ 0 0); [rewrite !map_length, seq_length, zipw_length; rewrite map_length, ?log_softmax_length; lia|]. intros k Hk. rewrite map_length, zipw_length in Hk by (rewrite map_length, log_softmax_length; lia). rewrite map_length in Hk.
    rewrite (@nth_map0 (fun x => x / tau) _ k 0) by (rewrite zipw_length; rewrite map_length, ?log_softmax_length; lia). rewrite (@nth_zipw Rplus _ _ k 0 0 0) by (rewrite ?map_length, ?log_softmax_length; lia). rewrite (@nth_map0 gumbel us k 0) by lia. unfold log_softmax. rewrite (@nth_map0 _ z k 0) by lia. rewrite nth_map_seq by lia. cbn [Nat.add]. unfold gumbel, c, Rdiv. ring. }
  rewrite A, B, !softmax_less. rewrite !post_dist by (auto; rewrite softmax_length, map_length, ?seq_length; lia). split; f_equal.
  - rewrite (@expect_softmax n) by (rewrite map_length; lia). f_equal; f_equal; apply map_ext_in; intros k Hk; apply in_seq in Hk; rewrite (@nth_map0 (fun x => x / tau) z k 0) by lia; reflexivity.
  - rewrite (@expect_softmax n) by (rewrite map_length, seq_length; lia). f_equal; f_equal; apply map_ext_in; intros k Hk; apply in_seq in Hk; rewrite nth_map_seq by lia; reflexivity.
Qed.
Print Assumptions C54_exact.
Example C54_exact_ex : stochastic_v None 3 (RangePair (-1) 1) = Ok (DInterval 3 (-1) 1) /\ centre 3 (-1) 1 1 = 0.
Proof. split; [exact C54_identity_ex|unfold centre; cbn; field]. Qed.
(** C54: with a transform (f, g) they lie in the transformed range, so that applying g by hand gives a number in value_range. *)
Theorem C54_transformed_partial : forall f g n lo hi d z tau us, stochastic_v (Some (f, g)) n (RangePair lo hi) = Ok d -> increasing f -> increasing g -> inverse_pair f g -> (1 <= n)%nat -> length z = n -> length us = n -> 0 < tau ->
  exists m md x, sv_mean d z = Ok m /\ sv_mode tau d z = Ok md /\ sv_sample tau us n (f lo) (f hi) z = Ok x /\
  (f lo < m < f hi /\ f lo < md < f hi /\ f lo < x < f hi) /\ (lo < g m < hi /\ lo < g md < hi /\ lo < g x < hi).
Proof.
  intros f g n lo hi d z tau us E If Ig [Gf _] Hn Hz Hu Ht. unfold stochastic_v, check_value_range in E. destruct (Rlt_dec lo hi) as [Hl|]; [|discriminate]. injection E as <-. cbn [fst snd interval_dist].
  destruct (@interval_outputs n (f lo) (f hi) z tau us Hn (If _ _ Hl) Hz Hu Ht) as (m & md & x & E1 & E2 & E3 & B1 & B2 & B3 & _). exists m, md, x. assert (B : forall u, f lo < u < f hi -> lo < g u < hi) by (intros u [U1 U2]; apply Ig in U1; apply Ig in U2; rewrite Gf in U1, U2; lra). repeat (split; auto).
Qed.
Print Assumptions C54_transformed_partial.
Example C54_transformed_partial_ex : exists f g, log_transform 1 = Ok (f, g) /\ increasing f /\ increasing g /\ inverse_pair f g.
Proof. destruct (@C45_bijection 1) as (f & g & E & I & _ & _ & F & G & _); [lra|]. exists f, g. auto. Qed.
(** C54: but nothing that the function returns lies in value_range: LogTransform(1), value_range (2, 3), any number of bins, any network
    output, any draw. *)
Theorem C54_refuted : exists f g, log_transform 1 = Ok (f, g) /\ forall n, exists d, stochastic_v (Some (f, g)) n (RangePair 2 3) = Ok d /\
  forall z tau us, (1 <= n)%nat -> length z = n -> length us = n -> 0 < tau -> exists m md x, sv_mean d z = Ok m /\ sv_mode tau d z = Ok md /\ sv_sample tau us n (f 2) (f 3) z = Ok x /\ m < 2 /\ md < 2 /\ x < 2.
Proof.
  destruct (@C45_bijection 1) as (f & g & E & I & _ & _ & F & G & _); [lra|]. exists f, g. split; auto. intros n. unfold stochastic_v, check_value_range. destruct (Rlt_dec 2 3) as [Hl|]; [|lra]. cbn [bind fst snd interval_dist]. eexists. split; [reflexivity|].
  intros z tau us Hn Hz Hu Ht. destruct (@interval_outputs n (f 2) (f 3) z tau us Hn (F _ _ Hl) Hz Hu Ht) as (m & md & x & E1 & E2 & E3 & B1 & B2 & B3 & _). exists m, md, x.
  assert (F3 : f 3 < 2).
  { destruct (@C45_formula 1 f g E 3) as [-> _]; [lra|]. replace (1 + 3 / 1) with (2 * 2) by lra. rewrite ln_mult by lra. assert (L : ln 2 <= 2 - 1) by (apply ln_le_minus1; lra). assert (N : ln 2 <> 1) by (intros C; assert (2 = 1) by (apply ln_eq_minus1; lra); lra). lra. }
  repeat (split; [auto; lra|]); lra.
Qed.
Print Assumptions C54_refuted.
(** C54: a quantile q-function whose quantiles all sit at the transform of the return 3 reports f(3), not 3. *)
Theorem C54_quantile_refuted : exists f g, log_transform 1 = Ok (f, g) /\ forall n d_obs d_act seed, (1 <= n)%nat ->
  sv_mean (so_dist (stochastic_q d_obs d_act (mkSQ None n None None (Some (f, g)) seed))) (repeat (f 3) n) = Ok (f 3) /\ f 3 < 3.
Proof.
  destruct (@C45_bijection 1) as (f & g & E & I & _ & _ & F & G & _ & _ & K); [lra|]. exists f, g. split; auto. intros n d_obs d_act seed Hn. cbn [stochastic_q so_dist sq_range sq_bins sv_mean]. split.
  - f_equal. unfold eq_mean. rewrite rsum_total, repeat_length. replace (repeat (f 3) n) with (map (fun _ : nat => f 3) (seq 0 n)). 2:{ clear. assert (H : forall s, map (fun _ : nat => f 3) (seq s n) = repeat (f 3) n) by (induction n; intros; cbn; [auto|now rewrite IHn]). apply H. }
    rewrite (@total_const nat), seq_length. assert (0 < INR n) by (apply lt_0_INR; lia). field. lra.
  - destruct (@C45_formula 1 f g E 3) as [-> _]; [lra|]. replace (1 + 3 / 1) with (2 * 2) by lra. rewrite ln_mult by lra. assert (L : ln 2 <= 2 - 1) by (apply ln_le_minus1; lra). lra.
Qed.
Print Assumptions C54_quantile_refuted.
(** C54: StochasticV rejects everything that is not a pair low < high. *)
Theorem C54_range_checked : forall tr n r, (forall lo hi, r = RangePair lo hi -> hi <= lo) -> stochastic_v tr n r = Err EType.
Proof. intros tr n [lo hi|] H; auto. unfold stochastic_v, check_value_range. specialize (H lo hi eq_refl). destruct (Rlt_dec lo hi); [lra|auto]. Qed.
Print Assumptions C54_range_checked.
Example C54_range_checked_ex : forall lo hi, RangePair 1 1 = RangePair lo hi -> hi <= lo. Proof. intros lo hi E. injection E as <- <-. lra. Qed.

(** ** C82: arguments of StochasticRewardFunction *)
(** Only value_range has an effect; in particular num_bins, value_transform, both preprocessors and the seed of the caller are lost. *)
Theorem C82_arguments_refuted : forall rr d_obs d_act a a', sq_range a = sq_range a' ->
  stochastic_reward rr d_obs d_act a = stochastic_reward rr d_obs d_act a' /\
  (so_seed (stochastic_reward rr d_obs d_act a) = None /\ so_obs (stochastic_reward rr d_obs d_act a) = d_obs /\ so_act (stochastic_reward rr d_obs d_act a) = d_act /\
   (forall x, so_f (stochastic_reward rr d_obs d_act a) x = x /\ so_finv (stochastic_reward rr d_obs d_act a) x = x)).
Proof. intros rr d_obs d_act a a' E. unfold stochastic_reward, stochastic_q. rewrite E. cbn. repeat split; auto. Qed.
Print Assumptions C82_arguments_refuted.
(** A network with the requested number of outputs is rejected when the function is evaluated, unless that number is 51. *)
Theorem C82_bins_refuted : forall rr d_obs d_act a z, length z = sq_bins a -> sq_bins a <> 51%nat -> sv_mean (so_dist (stochastic_reward rr d_obs d_act a)) z = Err EValue.
Proof.
  intros [lo hi] d_obs d_act a z Lz N. unfold stochastic_reward, stochastic_q. cbn [so_dist sq_range sq_tr sq_bins]. destruct (sq_range a) as [[l h]|]; cbn [interval_dist sv_mean]; unfold cat_mean; rewrite check_bad by congruence; reflexivity.
Qed.
Print Assumptions C82_bins_refuted.
Example C82_bins_refuted_ex : length [1; 2; 3] = sq_bins (mkSQ None 3 None None None None) /\ sq_bins (mkSQ None 3 None None None None) <> 51%nat. Proof. split; [reflexivity|cbn; lia]. Qed.
(** With 51 logits the mean lies in value_range, by default the reward_range of the environment. *)
Theorem C82_range : forall rl rh d_obs d_act a lo hi z, match sq_range a with Some r => r | None => (rl, rh) end = (lo, hi) -> lo < hi -> length z = 51%nat ->
  exists m, sv_mean (so_dist (stochastic_reward (rl, rh) d_obs d_act a)) z = Ok m /\ lo < m < hi.
Proof.
  intros rl rh d_obs d_act a lo hi z E Hl Hz. unfold stochastic_reward, stochastic_q. cbn [so_dist sq_range sq_tr sq_bins]. rewrite E. cbn [interval_dist].
  destruct (@interval_outputs 51 lo hi z 1 (repeat 0 51)) as (m & _ & _ & E1 & _ & _ & B & _); auto; try lia; try lra. exists m. auto.
Qed.
Print Assumptions C82_range.
Example C82_range_ex : match sq_range (mkSQ (Some (-2, 2)) 7 None None None None) with Some r => r | None => (0, 1) end = (-2, 2). Proof. reflexivity. Qed.

(** ** C83: the list of mean action values *)
(** For a discretized interval entry a of q.mean(s) is q.mean(s, a), for both model types. *)
Theorem C83_interval_partial : forall (St : Type) b lo hi n (q : qfun St (list R)) s, (1 <= n)%nat -> (1 <= b)%nat -> per_action (fun z => length z = b) n q -> (forall s a, (a < n)%nat -> length (at_action [] (one_hot n) q s a) = b) ->
  exists l, sq_mean_s (DInterval b lo hi) (Some n) (one_hot n) q s = Ok l /\ length l = n /\ forall a, (a < n)%nat -> sq_mean_a (DInterval b lo hi) (vmix b) (Some n) (one_hot n) q s a = Ok (nth a l 0).
Proof.
  intros St b lo hi n q s Hn Hb Hq Hl. set (g := fun a => expect (softmax (at_action [] (one_hot n) q s a)) (centre b lo hi)).
  assert (G : forall a, (a < n)%nat -> sv_mean (DInterval b lo hi) (at_action [] (one_hot n) q s a) = Ok (g a)).
  { intros a Ha. cbn [sv_mean]. unfold cat_mean. rewrite check_ok by auto. cbn [bind]. apply post_dist; auto. rewrite softmax_length. auto. }
  eexists. split; [apply (@mean_s_ok _ (fun z => length z = b) (DInterval b lo hi) n (one_hot n) q s g); auto|]. split; [now rewrite map_length, seq_length|]. intros a Ha. unfold sq_mean_a.
  rewrite (@type1_at _ _ [] (fun z => length z = b) n (one_hot n) (vmix b) q s a); auto.
  - cbn [bind]. rewrite G by auto. rewrite (@nth_map_any _ _ _ (seq 0 n) a 0 0%nat) by (now rewrite seq_length). now rewrite seq_nth.
  - split; [intros; apply one_hot_length|]. intros c l Hc Ll Sh. now apply vmix_one_hot.
Qed.
Print Assumptions C83_interval_partial.
Example C83_interval_partial_ex : per_action (fun z => length z = 3%nat) 2 (Type2 (fun s : R => [[s; 1; 2]; [0; s; 3]])) /\ forall s a, (a < 2)%nat -> length (at_action [] (one_hot 2) (Type2 (fun s : R => [[s; 1; 2]; [0; s; 3]])) s a) = 3%nat.
Proof. split; [intros s; split; auto; intros x [<-|[<-|[]]]; auto|]. intros s [|[|a]] Ha; auto. lia. Qed.
(** For quantile q-functions every entry of q.mean(s) is the value of action 0. *)
Theorem C83_quantile_refuted : forall (St : Type) b n (q : qfun St (list R)) s, (1 <= n)%nat -> per_action (fun z => length z = b) n q ->
  exists x, sq_mean_a (DQuantile b) (vmix b) (Some n) (one_hot n) q s 0 = Ok x /\ sq_mean_s (DQuantile b) (Some n) (one_hot n) q s = Ok (repeat x n).
Proof.
  intros St b n q s Hn Hq. exists (eq_mean (at_action [] (one_hot n) q s 0)). split.
  - unfold sq_mean_a. rewrite (@type1_at _ _ [] (fun z => length z = b) n (one_hot n) (vmix b) q s 0); auto. split; [intros; apply one_hot_length|]. intros c l Hc Ll Sh. now apply vmix_one_hot.
  - rewrite (@mean_s_ok _ (fun z => length z = b) (DQuantile b) n (one_hot n) q s (fun a => eq_mean (at_action [] (one_hot n) q s a)) Hn Hq) by auto. f_equal. generalize (eq_mean (at_action [] (one_hot n) q s 0)). intros x. assert (H : forall k, map (fun _ : nat => x) (seq k n) = repeat x n) by (clear; induction n; intros; cbn; [auto|now rewrite IHn]). apply H.
Qed.
Print Assumptions C83_quantile_refuted.
Example C83_quantile_refuted_ex : exists q : qfun unit (list R), per_action (fun z => length z = 1%nat) 2 q /\ sq_mean_a (DQuantile 1) (vmix 1) (Some 2%nat) (one_hot 2) q tt 1 = Ok 7 /\ sq_mean_s (DQuantile 1) (Some 2%nat) (one_hot 2) q tt = Ok [5; 5].
Proof.
  exists (Type1 (fun _ a => [5 + 2 * nth 1 a 0])). split; [exact I|]. split; cbn; unfold eq_mean; cbn; repeat f_equal; lra.
Qed.
(** Without an action, a q-function over non-discrete actions raises ValueError, for either distribution; so does a SuccessorStateQ. *)
Theorem C83_continuous : forall (St : Type) d enc (f : St -> list R -> list R) s, sq_mean_s d None enc (Type1 f) s = Err EValue.
Proof. reflexivity. Qed.
Print Assumptions C83_continuous.
(** A quantile distribution has no mode. *)
Theorem C83_quantile_mode_refuted : forall tau n z, sv_mode tau (DQuantile n) z = Err EAttribute.
Proof. reflexivity. Qed.
Print Assumptions C83_quantile_mode_refuted.

(** ** C84: SuccessorStateQ *)
Theorem C84_continuous : forall (St P Q' : Type) enc pmean rmean (v : St -> R) f f_inv gamma (p : St -> list R -> P) (r : qfun St Q') s,
  ssq_call_s None enc pmean rmean v f f_inv gamma (Type1 p) r s = Err EValue.
Proof. reflexivity. Qed.
Print Assumptions C84_continuous.
(** For discrete actions, both model types of p and r, any value transform with f_inv (f x) = x: q(s, a) and the entries of q(s) are
    r(s,a) + gamma * v(s'), with s' the mean next state. *)
Theorem C84_formula : forall (St P Q' : Type) (dP : P) (dQ : Q') shP shQ n enc mixP mixQ pmean rmean (v : St -> R) f f_inv gamma, (1 <= n)%nat -> picks dP shP n enc mixP -> picks dQ shQ n enc mixQ -> (forall x, f_inv (f x) = x) ->
  forall (p : qfun St P) (r : qfun St Q'), per_action shP n p -> per_action shQ n r -> forall s, exists l,
  ssq_call_s (Some n) enc pmean rmean v f f_inv gamma p r s = Ok l /\ length l = n /\
  forall a, (a < n)%nat -> ssq_call_a (Some n) mixP mixQ pmean rmean v f f_inv gamma p r s (enc a) = Ok (nth a l 0) /\
    nth a l 0 = rmean (at_action dQ enc r s a) + gamma * f_inv (v (pmean (at_action dP enc p s a))).
Proof.
  intros St P Q' dP dQ shP shQ n enc mixP mixQ pmean rmean v f f_inv gamma Hn HP HQ Hf p r Hp Hr s. destruct (@ssq_calls St P Q' dP dQ shP shQ n enc mixP mixQ pmean rmean v f f_inv gamma Hn HP HQ Hf p r Hp Hr s) as [E1 E2].
  eexists. split; [exact E1|]. split; [now rewrite map_length, seq_length|]. intros a Ha. rewrite (@nth_map_any _ _ _ (seq 0 n) a 0 0%nat) by (now rewrite seq_length). rewrite seq_nth by auto. split; [now apply E2|reflexivity].
Qed.
Print Assumptions C84_formula.
Lemma dot_picks : forall n, picks 0 (fun _ => True) n (one_hot n) dot.
Proof. intros n. split; [intros; apply one_hot_length|]. intros a l Ha Ll _. now apply dot_one_hot_l. Qed.
Lemma vmix_picks : forall n k, picks [] (fun z => length z = k) n (one_hot n) (vmix k).
Proof. intros n k. split; [intros; apply one_hot_length|]. intros a l Ha Ll Sh. now apply vmix_one_hot. Qed.
Example C84_formula_ex : picks 0 (fun _ => True) 2 (one_hot 2) dot /\ picks [] (fun z => length z = 3%nat) 2 (one_hot 2) (vmix 3).
Proof. split; [apply dot_picks|apply vmix_picks]. Qed.
(** On whole batches the type-2 view lists the type-1 view. *)
Theorem C84_views : forall (St P Q' : Type) (dP : P) (dQ : Q') shP shQ n enc mixP mixQ pmean rmean (v : St -> R) f f_inv gamma, (1 <= n)%nat -> picks dP shP n enc mixP -> picks dQ shQ n enc mixQ ->
  forall (p : qfun St P) (r : qfun St Q'), per_action shP n p -> per_action shQ n r -> forall S, exists Q,
  ssq_type2 (Some n) enc pmean rmean v f f_inv gamma p r S = Ok Q /\ length Q = length S /\
  forall b s, nth_error S b = Some s -> length (nth b Q []) = n /\ forall a, (a < n)%nat -> ssq_type1 (Some n) mixP mixQ pmean rmean v f f_inv gamma p r [s] [enc a] = Ok [nth a (nth b Q []) 0].
Proof.
  intros St P Q' dP dQ shP shQ n enc mixP mixQ pmean rmean v f f_inv gamma Hn HP HQ p r Hp Hr S. eexists. split; [eapply (@ssq_type2_at St P Q' dP dQ shP shQ); auto|]. split; [now rewrite map_length|]. intros b s Hb. assert (L : (b < length S)%nat) by (apply nth_error_Some; congruence).
  rewrite (@nth_map_any _ _ _ S b [] s) by auto. rewrite (nth_error_nth S b s Hb). split; [now rewrite map_length, seq_length|]. intros a Ha. rewrite (@nth_map_any _ _ _ (seq 0 n) a 0 0%nat) by (now rewrite seq_length). rewrite seq_nth by auto. now apply (@ssq_type1_at St P Q' dP dQ shP shQ).
Qed.
Print Assumptions C84_views.
(** The documented expectation over next states: for m states observed as one-hot vectors, a categorical transition model and a value
    function that is affine in the observation, without transform. *)
Theorem C84_expectation_partial : forall m (p : qfun (list R) (list R)) (r : qfun (list R) R) n v c vs gamma s, (1 <= n)%nat -> (1 <= m)%nat -> length vs = m -> (forall x, v x = c + dot x vs) ->
  per_action (fun z => length z = m) n p -> per_action (fun _ => True) n r -> (forall a, (a < n)%nat -> length (at_action [] (one_hot n) p s a) = m) ->
  forall a, (a < n)%nat -> ssq_call_a (Some n) (vmix m) dot softmax (fun x => x) v (fun x => x) (fun x => x) gamma p r s (one_hot n a) =
    Ok (one_step (at_action 0 (one_hot n) r s a) gamma (softmax (at_action [] (one_hot n) p s a)) (map (fun k => v (one_hot m k)) (seq 0 m))).
Proof.
  intros m p r n v c vs gamma s Hn Hm Lv Hv Hp Hr Hl a Ha.
  destruct (@C84_formula _ _ _ [] 0 (fun z => length z = m) (fun _ => True) n (one_hot n) (vmix m) dot softmax (fun x => x) v (fun x => x) (fun x => x) gamma Hn (vmix_picks n m) (dot_picks n) (fun x => eq_refl) p r Hp Hr s) as (l & _ & _ & H).
  destruct (H a Ha) as [-> ->]. f_equal. unfold one_step. f_equal. f_equal. specialize (Hl a Ha). set (z := at_action [] (one_hot n) p s a) in *. rewrite Hv. assert (Ls : length (softmax z) = m) by (now rewrite softmax_length).
  destruct (@softmax_dist z (@nonempty m z Hm Hl)) as [_ S1].
  rewrite (@expect_ext (softmax z) _ (fun k => c + nth k vs 0)).
  - unfold expect. rewrite (@total_ext _ _ (fun k => c * nth k (softmax z) 0 + nth k (softmax z) 0 * nth k vs 0)) by (intros; lra). rewrite (@total_plus nat), (@total_scal nat), map_nth_seq, S1. rewrite dot_expect by lia. unfold expect. lra.
  - intros k Hk. rewrite (@nth_map_any _ _ _ (seq 0 m) k 0 0%nat) by (rewrite seq_length; lia). rewrite seq_nth by lia. cbn [Nat.add]. rewrite Hv, dot_one_hot; lia || auto.
Qed.
Print Assumptions C84_expectation_partial.
Example C84_expectation_partial_ex : (forall x, (fun x => 1 + dot x [2; 3]) x = 1 + dot x [2; 3]) /\ per_action (fun z => length z = 2%nat) 1 (Type1 (fun (s a : list R) => [0; 1])).
Proof. split; [reflexivity|exact I]. Qed.
(** With any other value function it is v of the mean observation: two equally likely next states of value 1 and 1, but q = 1/2. *)
Theorem C84_expectation_refuted : exists (p : qfun (list R) (list R)) (r : qfun (list R) R) v s, per_action (fun z => length z = 2%nat) 1 p /\
  (forall k, (k < 2)%nat -> v (one_hot 2 k) = 1) /\ ssq_call_a (Some 1%nat) (vmix 2) dot softmax (fun x => x) v (fun x => x) (fun x => x) 1 p r s (one_hot 1 0) = Ok (1/2) /\
  one_step (at_action 0 (one_hot 1) r s 0) 1 (softmax (at_action [] (one_hot 1) p s 0)) (map (fun k => v (one_hot 2 k)) (seq 0 2)) = 1.
Proof.
  exists (Type1 (fun _ _ => [0; 0])), (Type1 (fun _ _ => 0)), (fun x => nth 0 x 0 * nth 0 x 0 + nth 1 x 0 * nth 1 x 0), []. split; [exact I|]. split; [|split].
  - intros [|[|k]] Hk; [| |lia]; cbn; lra.
  - unfold ssq_call_a, ssq_type1. cbn [function_type1 vmap2 bind map]. unfold ssq_row. cbn [bind]. f_equal. unfold softmax, sumexp. cbn [map]. rewrite rsum_total, !total_cons, exp_0. change (total []) with 0. cbn [nth]. lra.
  - unfold one_step, expect. cbn [at_action]. rewrite softmax_length. cbn [length seq map]. rewrite !total_cons. change (total []) with 0. unfold softmax, sumexp. cbn [map]. rewrite rsum_total, !total_cons, exp_0. change (total []) with 0. cbn. lra.
Qed.
Print Assumptions C84_expectation_refuted.
(** A RewardFunction with a value transform (g, g_inv) of its own: its forward pass is g(reward), which q uses as if it were the reward. *)
Theorem C84_reward_transform_refuted : exists g g_inv, log_transform 1 = Ok (g, g_inv) /\ exists (r : qfun unit R) (p : qfun unit unit) v, q_call_a (Some 1%nat) (one_hot 1) g_inv r tt 0 = Ok 3 /\ v tt = 0 /\
  exists x, ssq_call_a (Some 1%nat) (fun _ _ => tt) dot (fun s => s) (fun x => x) v (fun x => x) (fun x => x) 1 p r tt (one_hot 1 0) = Ok x /\ x < 2.
Proof.
  destruct (@C45_bijection 1) as (f & g & E & [I _] & _ & _ & F & G & _); [lra|]. exists f, g. split; auto. exists (Type1 (fun _ _ => f 3)), (Type1 (fun _ _ => tt)), (fun _ => 0). split; [unfold q_call_a; cbn; now rewrite I|]. split; auto.
  eexists. split; [reflexivity|]. unfold ssq_row. cbv beta. rewrite Rmult_0_r, Rplus_0_r.
  destruct (@C45_formula 1 f g E 3) as [-> _]; [lra|]. replace (1 + 3 / 1) with (2 * 2) by lra. rewrite ln_mult by lra. assert (L : ln 2 <= 2 - 1) by (apply ln_le_minus1; lra). assert (N : ln 2 <> 1) by (intros C; assert (2 = 1) by (apply ln_eq_minus1; lra); lra). lra.
Qed.
Print Assumptions C84_reward_transform_refuted.

(** ** C85: RandomPolicy *)
(** On bounded boxes the log-propensity is that of the uniform distribution; without return_logp, and for mode, the sample is returned. *)
Theorem C85_box : forall low high a, length low = length high -> (forall k, (k < length low)%nat -> nth k low 0 < nth k high 0) ->
  rp_call (SBox low high) a true = Ok (a, Some (ln (box_density low high))) /\ forall sp, rp_call sp a false = Ok (a, None) /\ rp_mode sp a = Ok a.
Proof.
  intros low high a L H. split; [|intros sp; split; reflexivity]. unfold rp_call. cbn [negb]. do 3 f_equal. unfold box_density. rewrite rsum_total.
  assert (G : 0 < product (map (fun lh => / (snd lh - fst lh)) (combine low high)) /\ - total (map ln (zipw Rminus high low)) = ln (product (map (fun lh => / (snd lh - fst lh)) (combine low high)))); [|tauto].
  revert high L H. induction low as [|x low IH]; intros [|y high] L H; cbn in L; try lia.
  - cbn. rewrite ln_1. lra.
  - cbn [zipw map combine fst snd]. rewrite total_cons. destruct (IH high) as [P E]; [lia| |]. { intros k Hk. apply (H (S k)). cbn. lia. } assert (Hx := H 0%nat). cbn in Hx. assert (x < y) by (apply Hx; lia). assert (I : 0 < / (y - x)) by (apply Rinv_0_lt_compat; lra).
    unfold product in *. cbn [fold_right]. split; [now apply Rmult_lt_0_compat|]. rewrite ln_mult by auto. rewrite <- E, ln_Rinv by lra. lra.
Qed.
Print Assumptions C85_box.
Example C85_box_ex : rp_call (SBox [0; 0] [2; 3]) (AVec [1; 1]) true = Ok (AVec [1; 1], Some (ln (box_density [0; 0] [2; 3]))).
Proof. apply C85_box; auto. intros [|[|k]] Hk; cbn in *; lra || lia. Qed.
(** For a discrete space the log-propensity -ln n is never returned. *)
Theorem C85_discrete_refuted : forall n a, rp_call (SDiscrete n) a true = Err EAttribute.
Proof. reflexivity. Qed.
Print Assumptions C85_discrete_refuted.
(** For a space that is neither Discrete nor Box neither the log-propensity nor the distribution parameters are defined. *)
Theorem C85_other_spaces : forall a, rp_call SOther a true = Err ENotImplemented /\ rp_dist_params SOther = Err ENotImplemented.
Proof. split; reflexivity. Qed.
Print Assumptions C85_other_spaces.
(** dist_params of a discrete space: every action has probability 1/n. *)
Theorem C85_dist_params : forall n, (1 <= n)%nat -> exists z, rp_dist_params (SDiscrete n) = Ok (RLogits z) /\ forall a, (a < n)%nat -> cat_log_proba n z (one_hot n a) = Ok (- ln (INR n)).
Proof.
  intros n Hn. exists (repeat 0 n). split; auto. intros a Ha. assert (L : length (repeat 0 n) = n) by apply repeat_length. rewrite (@cat_log_proba_one_hot n (repeat 0 n)) by auto. f_equal. rewrite nth_softmax by (now rewrite L). rewrite nth_rep by auto.
  assert (E : sumexp (repeat 0 n) = INR n). { unfold sumexp. rewrite rsum_total. clear. induction n; auto. rewrite S_INR. cbn [repeat map]. rewrite total_cons, IHn, exp_0. lra. }
  rewrite E, exp_0. unfold Rdiv. rewrite Rmult_1_l, ln_Rinv; auto. apply lt_0_INR. lia.
Qed.
Print Assumptions C85_dist_params.
Example C85_dist_params_ex : rp_dist_params (SDiscrete 3) = Ok (RLogits [0; 0; 0]). Proof. reflexivity. Qed.
(** dist_params of a box: two points of the box have different densities, and log_proba differs from the reported log-propensity. *)
Theorem C85_box_params_refuted : exists p l0 l1, rp_dist_params (SBox [-1] [1]) = Ok (RNormal p) /\ n_log_proba (mkND 1 (-20) 20) p [0] = Ok l0 /\ n_log_proba (mkND 1 (-20) 20) p [1] = Ok l1 /\ l1 < l0.
Proof.
  exists (mkN [0] [15]). do 2 eexists. split; [reflexivity|]. split; [reflexivity|]. split; [reflexivity|]. cbn [nd_dim length map zipw n_mu n_logvar nd_clo nd_chi]. rewrite !clip_in by (cbn; lra). pose proof (exp_pos (- (15))) as E. set (t := exp (- (15))) in *. assert (D : forall u, dot [u] [t] = u * t + 0) by reflexivity. rewrite !D. unfold Rsqr. lra.
Qed.
Print Assumptions C85_box_params_refuted.

(** ** C86: ModelUpdater with deterministic models *)
(** Reward functions: the loss is the weighted mean of the elementwise loss of the transformed reward, zero exactly if the function
    (which undoes its transform when called) returns every observed reward. *)
Theorem C86_reward : forall l L f g Rn Sn W p n, ((l = mse1 /\ L = fun e => e * e / 2) \/ exists d, 0 < d /\ l = huber1 d /\ L = huber_formula d) -> inverse_pair f g ->
  (1 <= n)%nat -> length Rn = n -> length p = n -> length W = n -> exists x, mu_loss l f None Rn Sn W (MReward p) = Ok (Some x) /\
  x = weighted_mean (fun k => L (nth k p 0 - f (nth k Rn 0))) (imp W) n /\ 0 <= x /\ (x = 0 <-> forall k, (k < n)%nat -> g (nth k p 0) = nth k Rn 0).
Proof.
  intros l L f g Rn Sn W p n Hl [Gf Fg] Hn LR Lp LW. assert (E : error_loss l L) by (destruct Hl as [[-> ->]|(d & Hd & -> & ->)]; [apply mse_error|now apply huber_error]).
  eexists. split; [|split; [reflexivity|]].
  - unfold mu_loss. rewrite (@reward_loss l L f Rn p W n) by auto. reflexivity.
  - destruct E as [_ E]. destruct (@wmean_nonneg (fun k => L (nth k p 0 - f (nth k Rn 0))) (imp W) n Hn) as [P Z].
    + intros k Hk. pose proof (imp_bounds W k). split; [lra|]. apply E.
    + split; auto. rewrite Z. split; intros H k Hk; specialize (H k Hk).
      * apply (proj1 (proj2 (E _))) in H. assert (nth k p 0 = f (nth k Rn 0)) as -> by lra. apply Gf.
      * apply (proj2 (proj2 (E _))). rewrite <- H, Fg. lra.
Qed.
Print Assumptions C86_reward.
Example C86_reward_ex : inverse_pair (fun x => 2 * x) (fun x => x / 2). Proof. split; intros; lra. Qed.
(** Transition models: likewise, entry by entry; zero exactly if every next observation is predicted. *)
Theorem C86_transition : forall l L f Rn Sn W P n d, ((l = mse1 /\ L = fun e => e * e / 2) \/ exists d, 0 < d /\ l = huber1 d /\ L = huber_formula d) ->
  (1 <= n)%nat -> (1 <= d)%nat -> length Sn = n -> length P = n -> length W = n -> (forall y, In y Sn -> length y = d) -> (forall p, In p P -> length p = d) -> exists x, mu_loss l f None Rn Sn W (MTransition P) = Ok (Some x) /\
  x = weighted_mean (fun b => mean (map (fun j => L (nth j (nth b P []) 0 - nth j (nth b Sn []) 0)) (seq 0 d))) (imp W) n /\ 0 <= x /\ (x = 0 <-> P = Sn).
Proof.
  intros l L f Rn Sn W P n d Hl Hn Hd LS LP LW HS HP. assert (E : error_loss l L) by (destruct Hl as [[-> ->]|(e & He & -> & ->)]; [apply mse_error|now apply huber_error]).
  eexists. split; [|split; [reflexivity|]].
  - unfold mu_loss. rewrite (@transition_loss l L Sn P W n d) by auto. reflexivity.
  - destruct E as [_ E]. assert (Q : forall b, 0 <= mean (map (fun j => L (nth j (nth b P []) 0 - nth j (nth b Sn []) 0)) (seq 0 d)) /\ (mean (map (fun j => L (nth j (nth b P []) 0 - nth j (nth b Sn []) 0)) (seq 0 d)) = 0 <-> forall j, (j < d)%nat -> L (nth j (nth b P []) 0 - nth j (nth b Sn []) 0) = 0)) by (intros b; apply (@mean_zero (fun j => L (nth j (nth b P []) 0 - nth j (nth b Sn []) 0)) d Hd); intros j _; apply E).
    destruct (@wmean_nonneg (fun b => mean (map (fun j => L (nth j (nth b P []) 0 - nth j (nth b Sn []) 0)) (seq 0 d))) (imp W) n Hn) as [Pz Z].
    + intros k Hk. pose proof (imp_bounds W k). split; [lra|]. apply Q.
    + split; auto. rewrite Z. split.
      * intros H. apply (@list_eq_nth _ []); [lia|]. intros b Hb. assert (Hb' : (b < n)%nat) by lia. apply (@list_eq_nth _ 0); [rewrite (HP _ (nth_In _ _ Hb)), HS; auto; apply nth_In; lia|]. intros j Hj. rewrite (HP _ (nth_In _ _ Hb)) in Hj. specialize (H b Hb'). assert (H2 := proj1 (proj2 (Q b)) H j Hj). clear H. rename H2 into H. apply (proj1 (proj2 (E _))) in H. lra.
      * intros -> b Hb. apply (proj2 (proj2 (Q b))). intros j Hj. apply (proj2 (proj2 (E _))). lra.
Qed.
Print Assumptions C86_transition.
Example C86_transition_ex : forall y, In y [[1; 2]; [3; 4]] -> length y = 2%nat. Proof. intros y [<-|[<-|[]]]; auto. Qed.
(** A regularizer is accepted by the constructor for every model, but the update of a deterministic model then always raises. *)
Theorem C86_regularizer_refuted : forall l f r Rn Sn W m x, (exists p, m = MReward p) \/ (exists P, m = MTransition P) -> mu_loss l f None Rn Sn W m = Ok x ->
  mu_loss l f (Some r) Rn Sn W m = Err EUnbound.
Proof.
  intros l f r Rn Sn W m x Hm H. unfold mu_loss in *. cbv zeta in *. destruct Hm as [[p ->]|[P ->]].
  - destruct (zip_loss _ _ _ _); [reflexivity|discriminate].
  - destruct (loss_2_2 _ _ _ _); [reflexivity|discriminate].
Qed.
Print Assumptions C86_regularizer_refuted.
Example C86_regularizer_refuted_ex : exists x y, mu_loss mse1 (fun x => x) None [1; 3] [] [1; 1] (MReward [2; 3]) = Ok (Some x) /\ mu_loss mse1 (fun x => x) None [] [[1]] [1] (MTransition [[2]]) = Ok (Some y).
Proof. do 2 eexists. split; reflexivity. Qed.
(** For stochastic models it adds the weighted mean of the regularizer. *)
Theorem C86_regularizer : forall l f r Rn Sn W m x n, (exists X, m = MStochReward X \/ m = MStochTransition X) -> (1 <= n)%nat -> length W = n -> length r = n -> mu_loss l f None Rn Sn W m = Ok (Some x) ->
  mu_loss l f (Some r) Rn Sn W m = Ok (Some (x + weighted_mean (fun k => nth k r 0) (imp W) n)).
Proof.
  intros l f r Rn Sn W m x n Hm' Hn LW Lr H. assert (Hm : m_stochastic m = true) by (destruct Hm' as (X & [-> | ->]); reflexivity). unfold mu_loss in *. cbv zeta in *. destruct (match m with MReward p => _ | MStochReward X => _ | MTransition P => _ | MStochTransition X => _ end) as [o|]; [|discriminate]. cbn [bind] in *. injection H as ->. rewrite Hm.
  assert (J : jmean (zipw Rmult (clip_w W) r) = Some (weighted_mean (fun k => nth k r 0) (imp W) n)).
  { rewrite (@zipw_seq Rmult (clip_w W) r n) by (auto; now rewrite clip_w_length). unfold jmean. destruct (map (fun j => nth j (clip_w W) 0 * nth j r 0) (seq 0 n)) as [|u U] eqn:EM; [apply map_eq_nil in EM; destruct n; [lia|discriminate]|]. rewrite <- EM. f_equal. unfold weighted_mean. rewrite rsum_total, map_length, seq_length. f_equal. apply total_ext. intros k Hk. apply in_seq in Hk. now rewrite imp_clip by lia. }
  now rewrite J.
Qed.
Print Assumptions C86_regularizer.
Example C86_regularizer_ex : m_stochastic (MStochTransition [[3]]) = true /\ exists x, mu_loss mse1 (fun x => x) None [] [[1]] [1] (MStochTransition [[3]]) = Ok (Some x). Proof. split; [reflexivity|]. eexists. reflexivity. Qed.

(** ** C87: ModelUpdater with stochastic reward functions *)
(** The rewards (one per transition) meet the sampled bins (51 per transition): for batches of any size other than 1 and 51 the update
    raises. *)
Theorem C87_batch_size_refuted : forall l f Rn Sn W X reg n b, (2 <= n)%nat -> (2 <= b)%nat -> n <> b -> length Rn = n -> length X = n -> (forall x, In x X -> length x = b) -> mu_loss l f reg Rn Sn W (MStochReward X) = Err EValue.
Proof.
  intros l f Rn Sn W X reg n b Hn Hb NE LR LX HX. unfold mu_loss. destruct X as [|x X]; [cbn in LX; lia|]. unfold loss_1_2. cbn [collect]. rewrite bcast_bad; [reflexivity| | |]; rewrite ?map_length, ?(HX x); auto; try lia; now left.
Qed.
Print Assumptions C87_batch_size_refuted.
Example C87_batch_size_refuted_ex : forall x, In x [one_hot 51 3; one_hot 51 4] -> length x = 51%nat. Proof. intros x [<-|[<-|[]]]; apply one_hot_length. Qed.
(** A batch of one: the loss does not depend on which bin was sampled. *)
Theorem C87_single_refuted : forall l f r Sn w b i j, (2 <= b)%nat -> (i < b)%nat -> (j < b)%nat -> mu_loss l f None [r] Sn [w] (MStochReward [one_hot b i]) = mu_loss l f None [r] Sn [w] (MStochReward [one_hot b j]).
Proof.
  intros l f r Sn w b i j Hb Hi Hj. unfold mu_loss, loss_1_2. cbn [collect map]. assert (C : forall k, bcast_row l [f r] (one_hot b k) = Ok (map (l (f r)) (one_hot b k))). { intros k. unfold bcast_row. rewrite one_hot_length. destruct (Nat.eqb_spec (length [f r]) b); [cbn in *; lia|reflexivity]. }
  rewrite !C. cbn [bind]. unfold mean_w. cbn [clip_w map length Nat.eqb combine fst snd concat]. rewrite !app_nil_r, !map_map. f_equal. unfold jmean.
  assert (T : forall k, (k < b)%nat -> total (map (fun x => clip w (1/10) 10 * l (f r) x) (one_hot b k)) = INR b * (clip w (1/10) 10 * l (f r) 0) + (clip w (1/10) 10 * l (f r) 1 - clip w (1/10) 10 * l (f r) 0)) by (intros k Hk; now rewrite (@one_hot_total (fun x => clip w (1/10) 10 * l (f r) x) b k Hk)).
  assert (N : forall k, map (fun x => clip w (1/10) 10 * l (f r) x) (one_hot b k) <> []) by (intros k C'; apply map_eq_nil in C'; apply (f_equal (@length R)) in C'; rewrite one_hot_length in C'; cbn in C'; lia).
  pose proof (N i) as Ni. pose proof (N j) as Nj. pose proof (T i Hi) as Ti. pose proof (T j Hj) as Tj. rewrite <- Tj in Ti. assert (Le : length (map (fun x => clip w (1/10) 10 * l (f r) x) (one_hot b i)) = length (map (fun x => clip w (1/10) 10 * l (f r) x) (one_hot b j))) by (now rewrite !map_length, !one_hot_length).
  destruct (map (fun x => clip w (1/10) 10 * l (f r) x) (one_hot b i)) as [|u U]; [congruence|]. destruct (map (fun x => clip w (1/10) 10 * l (f r) x) (one_hot b j)) as [|u' U']; [congruence|]. cbn [bind]. now rewrite !rsum_total, Ti, Le.
Qed.
Print Assumptions C87_single_refuted.
Example C87_single_refuted_ex : (2 <= 51)%nat /\ (0 < 51)%nat /\ (50 < 51)%nat. Proof. lia. Qed.
(** A batch as large as the number of bins, equal weights: exchanging the predictions of the transitions does not change the loss. *)
Theorem C87_square_refuted : forall l f Rn Sn c X X' n, length Rn = n -> length X = n -> (forall x, In x X -> length x = n) -> Permutation X X' ->
  mu_loss l f None Rn Sn (repeat c n) (MStochReward X) = mu_loss l f None Rn Sn (repeat c n) (MStochReward X').
Proof.
  intros l f Rn Sn c X X' n LR LX HX P. unfold mu_loss, loss_1_2. cbv zeta. assert (LX' : length X' = n) by (rewrite <- LX; symmetry; now apply Permutation_length). assert (HX' : forall x, In x X' -> length x = n) by (intros x Hx; apply HX; now apply (Permutation_in x (Permutation_sym P))).
  rewrite (@collect_bcast l (map f Rn) X n), (@collect_bcast l (map f Rn) X' n) by (auto; now rewrite map_length). cbn [bind].
  assert (CW : clip_w (repeat c n) = repeat (clip c (1/10) 10) n) by (unfold clip_w; clear; induction n; cbn; congruence). rewrite CW.
  pose proof (@mean_w_perm (clip c (1/10) 10) _ _ (Permutation_map (zipw l (map f Rn)) P)) as M. rewrite !map_length, LX, LX' in M. now rewrite M.
Qed.
Print Assumptions C87_square_refuted.
Example C87_square_refuted_ex : Permutation [one_hot 2 0; one_hot 2 1] [one_hot 2 1; one_hot 2 0]. Proof. apply perm_swap. Qed.

(** ** C88: ModelUpdater with stochastic transition models *)
(** The squared error of a sampled prediction, averaged over the noise: half the squared error of the mean plus half the variance of the
    model. *)
Theorem C88_expected_loss : forall D mu lv y w law f, nd_dim D = 1%nat -> nd_clo D <= nd_chi D -> standard_noise law -> exists c,
  (forall e, exists x, n_sample D (mkN [mu] [lv]) [e] = Ok x /\ mu_loss mse1 f None [] [[y]] [w] (MStochTransition [x]) = Ok (Some (c e))) /\
  law_expect law c = imp [w] 0 * (((mu - y) * (mu - y) + exp (clip lv (nd_clo D) (nd_chi D))) / 2).
Proof.
  intros D mu lv y w law f HD Hc Hlaw. set (s := exp (clip lv (nd_clo D) (nd_chi D) / 2)).
  exists (fun e => imp [w] 0 * ((mu + s * e - y) * (mu + s * e - y) / 2)). split.
  - intros e. exists [mu + s * e]. now apply noisy_loss.
  - rewrite (@law_ext law _ (fun e => imp [w] 0 * ((mu - y) * (mu - y) / 2) + imp [w] 0 * ((mu - y) * s) * e + imp [w] 0 * (s * s / 2) * (e * e))) by (intros; lra).
    rewrite law_lin by auto. assert (S2 : s * s = exp (clip lv (nd_clo D) (nd_chi D))) by (unfold s; rewrite <- exp_plus; f_equal; lra). rewrite <- S2. lra.
Qed.
Print Assumptions C88_expected_loss.
Example C88_expected_loss_ex : standard_noise [(1/2, 1); (1/2, -1)].
Proof. split; [intros pe [<-|[<-|[]]]; cbn; lra|]. repeat split; unfold law_expect, total; cbn; lra. Qed.
(** So the model that generated the data does not minimise the expected loss: for next states mu + sigma * noise, every model with the same
    mean and a smaller variance has a smaller expected loss than the true one.  e is the noise behind the observed next state y, e' that of the
    sampled prediction. *)
Theorem C88_fit_refuted : forall D mu lv lv' w law f, nd_dim D = 1%nat -> nd_clo D <= lv' -> lv' < lv -> lv <= nd_chi D -> standard_noise law ->
  exists c c' : R -> R -> R,
  (forall e, exists y, n_sample D (mkN [mu] [lv]) [e] = Ok [y] /\ forall e',
     (exists x, n_sample D (mkN [mu] [lv]) [e'] = Ok x /\ mu_loss mse1 f None [] [[y]] [w] (MStochTransition [x]) = Ok (Some (c e e'))) /\
     (exists x, n_sample D (mkN [mu] [lv']) [e'] = Ok x /\ mu_loss mse1 f None [] [[y]] [w] (MStochTransition [x]) = Ok (Some (c' e e')))) /\
  law_expect law (fun e => law_expect law (c' e)) < law_expect law (fun e => law_expect law (c e)).
Proof.
  intros D mu lv lv' w law f HD H1 H2 H3 Hlaw. set (s := exp (lv / 2)). set (s' := exp (lv' / 2)).
  assert (C1 : clip lv (nd_clo D) (nd_chi D) = lv) by (apply clip_in; lra). assert (C2 : clip lv' (nd_clo D) (nd_chi D) = lv') by (apply clip_in; lra).
  exists (fun e e' => imp [w] 0 * ((mu + s * e' - (mu + s * e)) * (mu + s * e' - (mu + s * e)) / 2)), (fun e e' => imp [w] 0 * ((mu + s' * e' - (mu + s * e)) * (mu + s' * e' - (mu + s * e)) / 2)). split.
  - intros e. exists (mu + s * e). split; [|intros e'; split].
    + destruct (@noisy_loss D mu lv 0 w f e HD) as [-> _]. now rewrite C1.
    + exists [mu + s * e']. destruct (@noisy_loss D mu lv (mu + s * e) w f e' HD) as [E1 E2]. rewrite C1 in E1, E2. auto.
    + exists [mu + s' * e']. destruct (@noisy_loss D mu lv' (mu + s * e) w f e' HD) as [E1 E2]. rewrite C2 in E1, E2. auto.
  - assert (G : forall t, law_expect law (fun e => law_expect law (fun e' => imp [w] 0 * ((mu + t * e' - (mu + s * e)) * (mu + t * e' - (mu + s * e)) / 2))) = imp [w] 0 * ((t * t + s * s) / 2)).
    { intros t. rewrite (@law_ext law _ (fun e => imp [w] 0 * (t * t / 2) + 0 * e + imp [w] 0 * (s * s / 2) * (e * e))).
      - rewrite law_lin by auto. lra.
      - intros e. rewrite (@law_ext law _ (fun e' => imp [w] 0 * (s * e * (s * e) / 2) + - imp [w] 0 * (t * s * e) * e' + imp [w] 0 * (t * t / 2) * (e' * e'))) by (intros; lra). rewrite law_lin by auto. lra. }
    rewrite !G. assert (P : s' < s) by (apply exp_increasing; lra). assert (P0 : 0 < s') by apply exp_pos. pose proof (imp_bounds [w] 0). apply Rmult_lt_compat_l; nra.
Qed.
Print Assumptions C88_fit_refuted.
Example C88_fit_refuted_ex : nd_dim (mkND 1 (-20) 20) = 1%nat /\ nd_clo (mkND 1 (-20) 20) <= 0 /\ 0 < 1 /\ 1 <= nd_chi (mkND 1 (-20) 20). Proof. cbn. repeat split; lra. Qed.
