(** Properties C48, C51, C52, C69-C74: policy objectives, value-based policies, regularizers, sampling from a policy. *)
From Coq Require Import List Lia Bool Arith Reals Lra.
From Verif Require Import PyCommon CommonProofs UtilsModel UtilsSpec UtilsProofs2 UtilsProofs3 WrappersProofs DistModel DistSpec DistProofs DistProofs2 LossModel LossSpec LossProofs QModel QProofs TDModel TDSpec TDProofs TDProofs2 TDProofs3 TracerModel TracerSpec PolicyModel PolicySpec PolicyProofs PolicyProofs2 PolicyProofs3 PolicyProofs4 PolicyProofs5.
Import ListNotations.
Local Open Scope R_scope.

(** Logits that move linearly with the parameter. *)
Definition line (u : R) : list R := [u; 2 * u].
Lemma line_moves : forall t, moves 2 line t (fun k => INR (k + 1)).
Proof.
  intros t. split; [reflexivity|]. intros [|[|k]] Hk; [| |lia]; unfold line; cbn [nth].
  - change (INR (0 + 1)) with 1. apply derivable_pt_lim_id.
  - replace (INR (1 + 1)) with (2 * 1) by (cbn; lra). apply (derivable_pt_lim_scal (fun u => u) 2 t 1). apply derivable_pt_lim_id.
Qed.
Definition ex_q2 : qfun nat R := Type2 (fun s => [INR s; 5]).
Lemma ex_q2_width : width 2 ex_q2. Proof. intros s. reflexivity. Qed.
Lemma ex_noise : noise 2 [1; 2]. Proof. split; [reflexivity|]. intros g [<-|[<-|[]]]; lra. Qed.

(** ** C48: the PPO objective *)
Theorem C48_value : forall eps W Adv logP logpi n, 0 <= eps -> (1 <= n)%nat -> length W = n -> length Adv = n -> length logP = n -> length logpi = n ->
  ppo_objective eps W Adv logP logpi = Ok (Some (weighted_mean (fun k => ppo_term (nth k Adv 0) eps (pratio logpi logP k)) (imp W) n)).
Proof. exact ppo_value. Qed.
Print Assumptions C48_value.
Example C48_value_ex : ppo_objective (1/5) [1] [2] [0] [ln 3] = Ok (Some (2 * (6/5))).
Proof.
  rewrite (@ppo_value (1/5) [1] [2] [0] [ln 3] 1) by (auto; lra). do 2 f_equal. unfold weighted_mean, pratio. cbn [seq map nth]. rewrite total_cons. change (total []) with 0. change (INR 1) with 1. rewrite exp_0, exp_ln by lra. rewrite imp_id by (cbn; lra). cbn [nth]. unfold ppo_term. destruct (Rle_dec 0 2); [|lra]. rewrite Rmin_right by lra. lra.
Qed.

(** C48: it never exceeds the unclipped surrogate mean(W * Adv * ratio); per sample the two agree exactly while the clipping is inactive,
    in particular within [1-eps, 1+eps]. *)
Theorem C48_pessimistic : forall eps W Adv logP logpi n v, 0 <= eps -> (1 <= n)%nat -> length W = n -> length Adv = n -> length logP = n -> length logpi = n ->
  ppo_objective eps W Adv logP logpi = Ok (Some v) -> v <= weighted_mean (fun k => nth k Adv 0 * pratio logpi logP k) (imp W) n.
Proof.
  intros eps W Adv logP lp n v He Hn LW LA LP Ll E. rewrite (@ppo_value eps W Adv logP lp n) in E by auto. injection E as <-. apply wmean_le; auto; intros k _; [pose proof (imp_bounds W k); lra|]. apply ppo_term_le.
Qed.
Print Assumptions C48_pessimistic.
Theorem C48_inside : forall eps W Adv logP logpi n, 0 <= eps -> (1 <= n)%nat -> length W = n -> length Adv = n -> length logP = n -> length logpi = n ->
  (forall k, (k < n)%nat -> 1 - eps <= pratio logpi logP k <= 1 + eps) -> ppo_objective eps W Adv logP logpi = Ok (Some (weighted_mean (fun k => nth k Adv 0 * pratio logpi logP k) (imp W) n)).
Proof.
  intros eps W Adv logP lp n He Hn LW LA LP Ll B. rewrite (@ppo_value eps W Adv logP lp n) by auto. do 2 f_equal. apply wmean_ext. intros k Hk. apply ppo_term_in. auto.
Qed.
Print Assumptions C48_inside.
Theorem C48_bound_is_tight : forall adv eps r, ppo_term adv eps r = adv * r <-> (adv = 0 \/ (0 < adv /\ r <= 1 + eps) \/ (adv < 0 /\ 1 - eps <= r)).
Proof. exact ppo_term_eq_iff. Qed.
Print Assumptions C48_bound_is_tight.
Example C48_inside_ex : 1 - 1/5 <= pratio [0] [0] 0 <= 1 + 1/5. Proof. unfold pratio. cbn [nth]. rewrite exp_0. lra. Qed.

(** C48: changing the ratio of a sample that is already beyond the clip (and keeping it there) does not change the objective. *)
Theorem C48_flat : forall eps W Adv logP logpi logpi' n, 0 <= eps -> (1 <= n)%nat -> length W = n -> length Adv = n -> length logP = n -> length logpi = n -> length logpi' = n ->
  (forall k, (k < n)%nat -> pratio logpi logP k = pratio logpi' logP k \/ (no_incentive (nth k Adv 0) eps (pratio logpi logP k) /\ no_incentive (nth k Adv 0) eps (pratio logpi' logP k))) ->
  ppo_objective eps W Adv logP logpi = ppo_objective eps W Adv logP logpi'.
Proof.
  intros eps W Adv logP lp lp' n He Hn LW LA LP Ll Ll' B. rewrite (@ppo_value eps W Adv logP lp n), (@ppo_value eps W Adv logP lp' n) by auto. do 2 f_equal. apply wmean_ext. intros k Hk. destruct (B k Hk) as [->|[N N']]; auto. symmetry. apply ppo_term_flat; auto. unfold no_incentive in N'. lra.
Qed.
Print Assumptions C48_flat.
Example C48_flat_ex : no_incentive 1 (1/5) (pratio [ln 2] [0] 0) /\ no_incentive 1 (1/5) (pratio [ln 3] [0] 0).
Proof. unfold no_incentive, pratio. cbn [nth]. rewrite exp_0, !exp_ln by lra. lra. Qed.

(** C48: the gradient with respect to any parameter of the policy: a sample contributes W * Adv * ratio * score while there is an
    incentive, and nothing beyond. *)
Theorem C48_gradient : forall eps W Adv logP lp n t d s, 0 <= eps -> (1 <= n)%nat -> length W = n -> length Adv = n -> length logP = n -> moves n lp t d ->
  (forall k, (k < n)%nat -> ppo_slope (nth k Adv 0) eps (pratio (lp t) logP k) (s k)) ->
  derivable_pt_lim (fun u => loss_value (ppo_objective eps W Adv logP (lp u))) t (weighted_mean (fun k => s k * d k) (imp W) n).
Proof. exact ppo_deriv. Qed.
Print Assumptions C48_gradient.
Example C48_gradient_ex : moves 2 line 0 (fun k => INR (k + 1)) /\ forall k, (k < 2)%nat -> ppo_slope (nth k [1; -1] 0) (1/5) (pratio (line 0) [0; 0] k) (nth k [1; -1] 0).
Proof.
  split; [apply line_moves|]. intros k Hk. unfold pratio, line. destruct k as [|[|k]]; [| |lia]; cbn [nth]; replace (2 * 0) with 0 by lra; rewrite exp_0; left; split; try lra; unfold incentive; lra.
Qed.

(** C48: before the first update (new policy = old policy) the gradient is that of the vanilla policy gradient. *)
Theorem C48_on_policy : forall eps W Adv lp n t d, 0 < eps -> (1 <= n)%nat -> length W = n -> length Adv = n -> moves n lp t d -> exists g,
  derivable_pt_lim (fun u => loss_value (ppo_objective eps W Adv (lp t) (lp u))) t g /\ derivable_pt_lim (fun u => loss_value (vanilla_objective W Adv (lp u))) t g.
Proof. intros eps W Adv lp n t d He Hn LW LA M. eexists. split; [now apply (@ppo_on_policy eps W Adv lp n t d)|now apply vanilla_deriv]. Qed.
Print Assumptions C48_on_policy.
Example C48_on_policy_ex : moves 2 line 3 (fun k => INR (k + 1)). Proof. apply line_moves. Qed.

Theorem C48_weights : forall W k, 1/10 <= imp W k <= 10 /\ (1/10 <= nth k W 0 <= 10 -> imp W k = nth k W 0).
Proof. intros W k. split; [apply imp_bounds|apply imp_id]. Qed.
Print Assumptions C48_weights.
Theorem C48_shapes : forall eps W Adv logP logpi, (length logpi <> length logP -> ppo_objective eps W Adv logP logpi = Err EType) /\
  (length logpi = length logP -> ~ (length Adv = length W /\ length logpi = length W) -> ppo_objective eps W Adv logP logpi = Err EAssertion).
Proof. exact ppo_bad. Qed.
Print Assumptions C48_shapes.
Example C48_shapes_ex : ~ (length [1] = length [1; 1] /\ length [1] = length [1; 1]). Proof. intros [E _]. discriminate. Qed.

(** C48: the vanilla objective also insists on equal batch sizes. *)
Theorem C48_vanilla_shapes : forall W Adv lp, ~ (length Adv = length W /\ length lp = length W) -> vanilla_objective W Adv lp = Err EAssertion.
Proof. exact vanilla_bad. Qed.
Print Assumptions C48_vanilla_shapes.
Example C48_vanilla_shapes_ex : ~ (length [1; 2; 3] = length [1; 1] /\ length [1; 2] = length [1; 1]). Proof. intros [E _]. discriminate. Qed.

(** ** C51: the probabilities of value-based policies *)
Theorem C51_epsilon_greedy : forall (St : Type) n eps (q : qfun St R) s, (1 <= n)%nat -> width n q -> 0 <= eps <= 1 ->
  exists z, eps_greedy n eps q s = Ok z /\ length z = n /\ forall a, (a < n)%nat -> exists p, eps_greedy_probability n eps (qval n q s) a p /\
    boltzmann n z a = (p + smoothing_1e15) / (1 + INR n * smoothing_1e15) /\ Rabs (boltzmann n z a - p) <= INR n * smoothing_1e15 /\ 0 < boltzmann n z a.
Proof. exact eps_policy_spec. Qed.
Print Assumptions C51_epsilon_greedy.
Example C51_epsilon_greedy_ex : width 2 ex_q2 /\ eps_greedy_probability 2 (1/5) (qval 2 ex_q2 3%nat) 1 (9/10) /\ eps_greedy_probability 2 (1/5) (qval 2 ex_q2 3%nat) 0 (1/10).
Proof.
  split; [exact ex_q2_width|]. assert (M : forall a, In a [1]%nat <-> (a < 2)%nat /\ forall c, (c < 2)%nat -> qval 2 ex_q2 3%nat c <= qval 2 ex_q2 3%nat a).
  { intros a. split.
    - intros [<-|[]]. split; [lia|]. intros [|[|c]] Hc; [| |lia]; cbn; lra.
    - intros [Ha H]. destruct a as [|[|a]]; [|now left|lia]. exfalso. specialize (H 1%nat ltac:(lia)). cbn in H. lra. }
  split; exists [1%nat]; (split; [repeat constructor; intros []|]; split; [discriminate|]; split; [exact M|]).
  - left. split; [now left|]. cbn. lra.
  - right. split; [intros [E|[]]; discriminate|]. cbn. lra.
Qed.

(** C51: Boltzmann: proportional to exp(q/t), ordered like q; low temperatures leave at most t/(gap) for an action with that gap,
    high temperatures approach the uniform policy. *)
Theorem C51_boltzmann : forall (St : Type) n t (q : qfun St R) s, (1 <= n)%nat -> width n q -> 0 < t ->
  exists z, boltzmann_policy n t q s = Ok z /\ length z = n /\
    (forall a, (a < n)%nat -> boltzmann n z a = exp (qval n q s a / t) / total (map (fun c => exp (qval n q s c / t)) (seq 0 n))) /\
    (forall a c, (a < n)%nat -> (c < n)%nat -> (boltzmann n z a < boltzmann n z c <-> qval n q s a < qval n q s c)) /\
    (forall a c, (a < n)%nat -> (c < n)%nat -> qval n q s a < qval n q s c -> boltzmann n z a <= t / (qval n q s c - qval n q s a)) /\
    (forall a D, (a < n)%nat -> (forall c, (c < n)%nat -> Rabs (qval n q s a - qval n q s c) <= D) -> exp (- (D / t)) / INR n <= boltzmann n z a <= exp (D / t) / INR n).
Proof. exact boltz_policy_spec. Qed.
Print Assumptions C51_boltzmann.
Example C51_boltzmann_ex : width 2 ex_q2 /\ qval 2 ex_q2 3%nat 0 < qval 2 ex_q2 3%nat 1. Proof. split; [exact ex_q2_width|]. cbn. lra. Qed.

(** ** C52: the n-step entropy bonus *)
(** C52: correct for the offsets 0, 1, ..., m-1 on a finished episode ... *)
Theorem C52_consecutive_partial : forall S A n gamma beta g m (H : S -> R) (ep : episode S A) t y, nstep_spec n g true ep true t y -> (1 <= m <= n + 1)%nat ->
  nstep_entropy 2 beta gamma (seq 0 m) H (x_extra y) = Ok (Some (- beta * valid_bonus gamma (seq 0 m) (fun k => hstate H ep (t + k)) (length ep - 1 - t))).
Proof. exact nse_consecutive. Qed.
Print Assumptions C52_consecutive_partial.
Example C52_consecutive_partial_ex : exists y, nstep_spec 3 1 true (flat_ep 2) true 0 y. Proof. apply flat_spec. lia. Qed.

(** ... and for all offsets as long as the last recorded step lies before the end of the episode. *)
Theorem C52_unfinished_partial : forall S A n gamma beta g ns (H : S -> R) (ep : episode S A) t y, nstep_spec n g true ep false t y -> (t + n < length ep)%nat -> ns <> [] -> (forall k, In k ns -> (k <= n)%nat /\ (k <= last ns 0)%nat) ->
  nstep_entropy 2 beta gamma ns H (x_extra y) = Ok (Some (- beta * valid_bonus gamma ns (fun k => hstate H ep (t + k)) (length ep - 1 - t))).
Proof. exact nse_unfinished. Qed.
Print Assumptions C52_unfinished_partial.
Example C52_unfinished_partial_ex : ([0; 2]%nat <> [] /\ forall k, In k [0; 2]%nat -> (k <= 2)%nat /\ (k <= last [0; 2] 0)%nat) /\ (0 + 2 < length (flat_ep 2))%nat.
Proof. split; [split; [discriminate|]; intros k [<-|[<-|[]]]; cbn; lia|]. cbn. lia. Qed.

(** C52: what is computed for all offsets: offset j counts if none of the requested offsets before it reaches the end of the episode;
    offsets beyond the end repeat the entropy of the last state. *)
Theorem C52_general : forall S A n gamma beta g ns (H : S -> R) (ep : episode S A) t y, nstep_spec n g true ep true t y -> ns <> [] -> (forall k, In k ns -> (k <= n)%nat /\ (k <= last ns 0)%nat) ->
  nstep_entropy 2 beta gamma ns H (x_extra y) =
  Ok (Some (- beta * total (map (fun j => gamma ^ nth j ns 0%nat * hstate H ep (Nat.min (t + nth j ns 0%nat) (length ep - 1))) (filter (fun j => forallb (fun k => Nat.ltb (t + k) (length ep - 1)) (firstn j ns)) (seq 0 (length ns)))))).
Proof. exact nse_general. Qed.
Print Assumptions C52_general.
Example C52_general_ex : exists y, nstep_spec 3 1 true (flat_ep 0) true 0 y. Proof. apply flat_spec. lia. Qed.

(** C52: for every choice of ascending offsets other than 0, 1, ..., m-1 the bonus is wrong at some step of some episode. *)
Theorem C52_gaps_refuted : forall n beta gamma ns, (1 <= n)%nat -> beta <> 0 -> gamma <> 0 -> ns <> [] -> ascending ns -> (forall k, In k ns -> (k <= n)%nat) -> ns <> seq 0 (length ns) ->
  exists (ep : episode nat nat) y v, nstep_spec n 1 true ep true 0 y /\ nstep_entropy 2 beta gamma ns (fun _ => 1) (x_extra y) = Ok (Some v) /\ v <> - beta * valid_bonus gamma ns (fun k => hstate (fun _ => 1) ep (0 + k)) (length ep - 1 - 0).
Proof. exact nse_gap_wrong. Qed.
Print Assumptions C52_gaps_refuted.
Example C52_gaps_refuted_ex : ascending [0; 2]%nat /\ [0; 2]%nat <> seq 0 (length [0; 2]%nat) /\ forall k, In k [0; 2]%nat -> (k <= 2)%nat.
Proof. split; [|split; [discriminate|intros k [<-|[<-|[]]]; lia]]. intros i j Hij. cbn [length] in Hij. destruct i as [|[|i]], j as [|[|j]]; cbn; lia. Qed.

(** C52: an offset that is not recorded, or offsets in descending order, make the result nan. *)
Theorem C52_nan : forall S A n gamma beta g ns (H : S -> R) (ep : episode S A) fin t y k, nstep_spec n g true ep fin t y -> In k ns -> ((n < k)%nat \/ ((forall k, In k ns -> (k <= n)%nat) /\ (last ns 0 < k)%nat)) ->
  nstep_entropy 2 beta gamma ns H (x_extra y) = Ok None.
Proof. intros S A n gamma beta g ns H ep fin t y k SP I [L|[B L]]; [eapply nse_nan; eauto|eapply nse_unsorted; eauto]. Qed.
Print Assumptions C52_nan.
Example C52_nan_ex : In 2%nat [2; 1]%nat /\ (last [2; 1] 0 < 2)%nat /\ forall k, In k [2; 1]%nat -> (k <= 3)%nat.
Proof. split; [now left|]. split; [cbn; lia|]. intros k [<-|[<-|[]]]; lia. Qed.

(** C52: a categorical policy has one distribution parameter and is rejected. *)
Theorem C52_categorical_refuted : forall S A beta gamma ns (H : S -> R) (es : list (entry S A)), ns <> [] -> nstep_entropy 1 beta gamma ns H (Some es) = Err EAssertion.
Proof. intros S A beta gamma ns H es NE. unfold nstep_entropy, nse_gammas. destruct ns; [congruence|reflexivity]. Qed.
Print Assumptions C52_categorical_refuted.
Example C52_categorical_refuted_ex : [0]%nat <> []. Proof. discriminate. Qed.

(** ** C69: policy gradient *)
Theorem C69_reinforce : forall W Adv lp n t d, (1 <= n)%nat -> length W = n -> length Adv = n -> moves n lp t d ->
  derivable_pt_lim (fun u => loss_value (vanilla_objective W Adv (lp u))) t (weighted_mean (fun k => nth k Adv 0 * d k) (imp W) n).
Proof. exact vanilla_deriv. Qed.
Print Assumptions C69_reinforce.
Example C69_reinforce_ex : moves 2 line 1 (fun k => INR (k + 1)) /\ length [1; 2] = 2%nat. Proof. split; [apply line_moves|reflexivity]. Qed.

(** C69: with an action drawn from the (categorical) policy, the expected gradient of the objective is the gradient of the expected
    advantage, whatever baseline b is subtracted. *)
Theorem C69_unbiased : forall n z t d (adv : nat -> R) b w, (1 <= n)%nat -> moves n z t d -> 1/10 <= w <= 10 ->
  exists g : nat -> R, (forall a, (a < n)%nat -> derivable_pt_lim (fun u => loss_value (vanilla_objective [w] [adv a - b] [ln (boltzmann n (z u) a)])) t (g a)) /\
    derivable_pt_lim (fun u => w * expectation n (boltzmann n (z u)) adv) t (expectation n (boltzmann n (z t)) g).
Proof. exact policy_gradient. Qed.
Print Assumptions C69_unbiased.
Example C69_unbiased_ex : moves 2 line 1 (fun k => INR (k + 1)). Proof. apply line_moves. Qed.

(** C69: ln (boltzmann n z a) is what log_proba returns for action a. *)
Theorem C69_log_proba : forall n z a, (1 <= n)%nat -> length z = n -> (a < n)%nat -> cat_log_proba n z (one_hot n a) = Ok (ln (boltzmann n z a)).
Proof. exact logp_boltzmann. Qed.
Print Assumptions C69_log_proba.
Example C69_log_proba_ex : cat_log_proba 2 [0; 0] (one_hot 2 1) = Ok (ln (1/2)).
Proof. rewrite logp_boltzmann by (auto; lia). do 2 f_equal. unfold boltzmann. cbn [seq map nth]. rewrite !total_cons. change (total []) with 0. rewrite exp_0. lra. Qed.

(** ** C70: deterministic and soft policy gradients *)
Theorem C70_deterministic : forall (St : Type) mode (f : St -> list R -> R) W S, S <> [] -> length W = length S ->
  deterministic_pg mode (Type1 f) W S = Ok (Some (weighted_mean (fun k => nth k (map (fun s => f s (mode s)) S) 0) (imp W) (length S))).
Proof. exact dpg_value. Qed.
Print Assumptions C70_deterministic.
Example C70_deterministic_ex : deterministic_pg (fun s => [INR s]) (Type1 (fun _ a => 7 * nth 0 a 0)) [1] [2]%nat = Ok (Some 14).
Proof. rewrite dpg_value by (auto; discriminate). do 2 f_equal. unfold weighted_mean. cbn [length seq map nth]. rewrite total_cons. change (total []) with 0. rewrite imp_id by (cbn; lra). cbn. lra. Qed.

Theorem C70_soft_type1 : forall (St : Type) D sample (fs : list (St -> list R -> R)) W S, fs <> [] -> S <> [] -> length W = length S ->
  exists m : nat -> R, soft_pg D sample (map Type1 fs) W S = Ok (Some (weighted_mean m (imp W) (length S))) /\
    forall k s, nth_error S k = Some s -> is_minimum_of (map (fun f => f s (sample s)) fs) (m k).
Proof. exact spg_type1. Qed.
Print Assumptions C70_soft_type1.
Example C70_soft_type1_ex : [fun (s : nat) (a : list R) => INR s; fun s a => nth 0 a 0] <> []. Proof. discriminate. Qed.
(** C70: with type-2 q-functions, the expectation of each q over the (relaxed) sampled action. *)
Theorem C70_soft_type2 : forall (St : Type) n sample (qs : list (qfun St R)) W S, (1 <= n)%nat -> qs <> [] -> S <> [] -> length W = length S -> (forall q, In q qs -> width n q /\ type2 q) -> (forall s, length (sample s) = n) ->
  exists m : nat -> R, soft_pg (Some n) sample qs W S = Ok (Some (weighted_mean m (imp W) (length S))) /\
    forall k s, nth_error S k = Some s -> is_minimum_of (map (fun q => expectation n (fun a => nth a (sample s) 0) (qval n q s)) qs) (m k).
Proof. exact spg_type2. Qed.
Print Assumptions C70_soft_type2.
Example C70_soft_type2_ex : forall q, In q [ex_q2; Type2 (fun s => [0; 1])] -> width 2 q /\ type2 q. Proof. intros q [<-|[<-|[]]]; split; try exact I; intros s; reflexivity. Qed.
Theorem C70_rejects : forall (St : Type) D mode sample (f : St -> list R -> R) (h : St -> list R) W S, deterministic_pg mode (Type2 h) W S = Err EType /\ soft_pg D sample (@nil (qfun St R)) W S = Err EValue /\
  (length W <> length S -> deterministic_pg mode (Type1 f) W S = Err EAssertion /\ soft_pg D sample [Type1 f] W S = Err EAssertion).
Proof.
  intros. split; [reflexivity|]. split; [reflexivity|]. intros L. assert (Q : forall q, length q = length S -> weighted_q W q = Err EAssertion).
  { intros q E. unfold weighted_q, equal_shape. cbn zeta. cbn [forallb]. rewrite clip_w_length, E. destruct (Nat.eqb_spec (length S) (length W)); [congruence|reflexivity]. }
  split; [apply Q, map_length|]. unfold soft_pg. cbn [collect].
  assert (E : eval1 D (Type1 f) S (map sample S) = Ok (map (fun s => f s (sample s)) S)) by (unfold eval1, function_type1; clear; induction S as [|s S IH]; auto; cbn [map vmap2]; cbn in IH; rewrite IH; reflexivity).
  rewrite E. cbn [bind]. apply Q. now rewrite map_length, seq_length.
Qed.
Print Assumptions C70_rejects.

(** ** C71: the log-propensity returned by policy(s, return_logp=True) *)
(** C71: the action maximises gumbel noise + log-probability (the Gumbel-max rule, which samples from the policy).  The log-propensity is
    that of a relaxed sample: it lies between the extreme log-probabilities, and it approaches that of the action as tau goes to 0. *)
Theorem C71_call_partial : forall n tau z us gs, (1 <= n)%nat -> 0 < tau -> length z = n -> length us = n -> noise n gs ->
  exists a logp, policy_call n tau z us gs = Ok (a, logp) /\ (a < n)%nat /\
  (forall c, (c < n)%nat -> gumbel (nth c us 0) + ln (boltzmann n z c) <= gumbel (nth a us 0) + ln (boltzmann n z a)) /\
  (forall lo hi, (forall k, (k < n)%nat -> lo <= ln (boltzmann n z k) <= hi) -> lo <= logp <= hi /\
     forall gap, 0 <= gap -> (forall c, (c < n)%nat -> c <> a -> gumbel (nth c us 0) + ln (boltzmann n z c) + gap <= gumbel (nth a us 0) + ln (boltzmann n z a)) ->
       Rabs (logp - ln (boltzmann n z a)) <= INR (n - 1) * exp (- (gap / tau)) * (hi - lo)).
Proof. exact call_spec. Qed.
Print Assumptions C71_call_partial.
Example C71_call_partial_ex : noise 2 [1; 2] /\ length [0; 1] = 2%nat /\ length [1/2; 1/3] = 2%nat. Proof. split; [exact ex_noise|auto]. Qed.
(** C71: for uniform policies it is exact. *)
Theorem C71_uniform_partial : forall n tau z us gs, (1 <= n)%nat -> 0 < tau -> length z = n -> length us = n -> noise n gs -> (forall i j, (i < n)%nat -> (j < n)%nat -> nth i z 0 = nth j z 0) ->
  exists a, policy_call n tau z us gs = Ok (a, ln (boltzmann n z a)) /\ (a < n)%nat.
Proof.
  intros n tau z us gs Hn Ht Lz Lu Ng U. destruct (@call_spec n tau z us gs Hn Ht Lz Lu Ng) as (a & logp & E & Ha & _ & B). exists a. split; auto. rewrite E. do 2 f_equal.
  destruct (B (ln (boltzmann n z a)) (ln (boltzmann n z a))) as [B' _]; [|lra]. intros k Hk. unfold boltzmann. rewrite (U k a Hk Ha). lra.
Qed.
Print Assumptions C71_uniform_partial.
Example C71_uniform_partial_ex : forall i j, (i < 2)%nat -> (j < 2)%nat -> nth i [3; 3] 0 = nth j [3; 3] 0. Proof. intros [|[|i]] [|[|j]] Hi Hj; auto; lia. Qed.
(** C71: for every other policy and every tau there are draws for which it is not: the reported value is too small, and an unchanged
    policy has PPO ratio above 1. *)
Theorem C71_logp_refuted : forall n tau z i j gs, (1 <= n)%nat -> 0 < tau -> length z = n -> (i < n)%nat -> (j < n)%nat -> nth i z 0 <> nth j z 0 -> noise n gs ->
  exists us a logp, length us = n /\ (forall u, In u us -> 0 < u < 1) /\ policy_call n tau z us gs = Ok (a, logp) /\ logp < ln (boltzmann n z a) /\ 1 < exp (ln (boltzmann n z a) - logp).
Proof. exact call_wrong. Qed.
Print Assumptions C71_logp_refuted.
Example C71_logp_refuted_ex : nth 0 [0; 1] 0 <> nth 1 [0; 1] 0 /\ noise 2 [1; 2]. Proof. split; [cbn; lra|exact ex_noise]. Qed.

(** ** C72: greedy actions *)
Theorem C72_mode_mean : forall n tau z gs, (1 <= n)%nat -> 0 < tau -> length z = n -> noise n gs -> exists a b, policy_mode n tau z gs = Ok a /\ optimal n (boltzmann n z) a /\ policy_mean n z gs = Ok b /\ optimal n (boltzmann n z) b.
Proof. exact mode_spec. Qed.
Print Assumptions C72_mode_mean.
Example C72_mode_mean_ex : noise 2 [1; 2] /\ optimal 2 (boltzmann 2 [0; 1]) 1.
Proof. split; [exact ex_noise|]. apply maximal_optimal; auto. split; [cbn; lia|]. intros [|[|k]] Hk; cbn in *; lra || lia. Qed.
Theorem C72_epsilon_greedy : forall (St : Type) n eps tau (q : qfun St R) s gs, (1 <= n)%nat -> width n q -> 0 <= eps < 1 -> 0 < tau -> noise n gs ->
  exists z a b, eps_greedy n eps q s = Ok z /\ policy_mode n tau z gs = Ok a /\ optimal n (qval n q s) a /\ policy_mean n z gs = Ok b /\ optimal n (qval n q s) b.
Proof. exact eps_greedy_mode. Qed.
Print Assumptions C72_epsilon_greedy.
Theorem C72_boltzmann : forall (St : Type) n t tau (q : qfun St R) s gs, (1 <= n)%nat -> width n q -> 0 < t -> 0 < tau -> noise n gs ->
  exists z a b, boltzmann_policy n t q s = Ok z /\ policy_mode n tau z gs = Ok a /\ optimal n (qval n q s) a /\ policy_mean n z gs = Ok b /\ optimal n (qval n q s) b.
Proof. exact boltzmann_mode. Qed.
Print Assumptions C72_boltzmann.
Example C72_policies_ex : width 2 ex_q2 /\ optimal 2 (qval 2 ex_q2 3%nat) 1 /\ ~ optimal 2 (qval 2 ex_q2 3%nat) 0.
Proof. split; [exact ex_q2_width|]. split; [split; [lia|]; intros [|[|c]] Hc; cbn; lra || lia|]. intros [_ H]. specialize (H 1%nat ltac:(lia)). cbn in H. lra. Qed.

(** ** C73: the metric kl_div_old *)
Theorem C73_sample_partial : forall p q, 0 < p -> 0 < q -> kl_div_old [ln p] [ln q] = Ok (Some (p * (ln p - ln q))).
Proof. exact kl_old_one. Qed.
Print Assumptions C73_sample_partial.
(** C73: n times the metric is the KL divergence when every action occurs once in the batch. *)
Theorem C73_each_action_once_partial : forall p q n, (1 <= n)%nat -> length p = n -> length q = n -> (forall x, In x p -> 0 < x) -> kl_div_old (map ln p) (map ln q) = Ok (Some (KL p q / INR n)).
Proof. exact kl_old_all. Qed.
Print Assumptions C73_each_action_once_partial.
Theorem C73_same_partial : forall l, l <> [] -> kl_div_old l l = Ok (Some 0).
Proof. exact kl_old_same. Qed.
Print Assumptions C73_same_partial.
Example C73_ex : forall x, In x [9/10; 1/10] -> 0 < x. Proof. intros x [<-|[<-|[]]]; lra. Qed.
(** C73: with actions drawn from the old policy p the expected metric is not the KL divergence; it may be negative. *)
Theorem C73_refuted : exists p q : list R, pos_distribution p /\ pos_distribution q /\ length p = length q /\
  expect p (fun a => loss_value (kl_div_old [ln (nth a p 0)] [ln (nth a q 0)])) < 0 < KL p q.
Proof.
  exists [9/10; 1/10], [19/20; 1/20]. split; [split; [intros x [<-|[<-|[]]]; lra|cbn; lra]|]. split; [split; [intros x [<-|[<-|[]]]; lra|cbn; lra]|]. split; [reflexivity|].
  assert (L1 : ln (9/10) - ln (19/20) <= - (1/19)).
  { rewrite <- ln_div by lra. pose proof (exp_ineq1_le (ln (9/10 / (19/20)))) as E. rewrite exp_ln in E by lra. lra. }
  assert (L1' : - (1/18) <= ln (9/10) - ln (19/20)).
  { assert (ln (19/20) - ln (9/10) <= 1/18); [|lra]. rewrite <- ln_div by lra. pose proof (exp_ineq1_le (ln (19/20 / (9/10)))) as E. rewrite exp_ln in E by lra. lra. }
  assert (L2 : ln (1/10) - ln (1/20) = ln 2) by (rewrite <- ln_div by lra; f_equal; lra).
  assert (L3 : ln 2 <= 1) by (pose proof (exp_ineq1_le (ln 2)) as E; rewrite exp_ln in E by lra; lra).
  assert (L4 : 1/2 < ln 2).
  { destruct (Rlt_dec (1/2) (ln 2)) as [|N]; auto. exfalso. assert (ln 2 + ln 2 <= 1) by lra. assert (ln (2 * 2) = ln 2 + ln 2) by (apply ln_mult; lra). assert (LE : exp (ln (2 * 2)) <= exp 1) by (destruct (Req_dec (ln (2 * 2)) 1) as [->|]; [lra|left; apply exp_increasing; lra]). rewrite exp_ln in LE by lra. pose proof exp_le_3. lra. }
  unfold KL, expect. cbn [length seq map nth]. rewrite !kl_old_one by lra. cbn [loss_value]. rewrite !total_cons. change (total []) with 0. rewrite L2. split; lra.
Qed.
Print Assumptions C73_refuted.

(** ** C74: regularized policy loss *)
Theorem C74_entropy : forall n beta W o (zs : list (list R)) r, (1 <= n)%nat -> zs <> [] -> length W = length zs -> (forall z, In z zs -> length z = n) -> collect (entropy_reg n beta) zs = Ok r ->
  policy_loss (Ok (Some o)) W (Some r) = Ok (Some (- o - beta * weighted_mean (fun k => H (map (boltzmann n (nth k zs [])) (seq 0 n))) (imp W) (length zs))).
Proof.
  intros n beta W o zs r Hn NE LW Lz E. rewrite (@collect_ok _ _ _ (fun z => - beta * H (softmax z))) in E by (intros; apply entropy_reg_ok; auto). injection E as <-.
  rewrite (@loss_reg W o _ (length zs)); [|destruct zs; [congruence|cbn; lia]|auto|now rewrite map_length]. do 2 f_equal. unfold Rminus. f_equal. rewrite Ropp_mult_distr_l, <- wmean_scal. apply wmean_ext. intros k Hk. rewrite (@nth_map_any _ _ (fun z => - beta * H (softmax z)) zs k 0 [] Hk). do 2 f_equal.
  assert (L : length (nth k zs []) = n) by (apply Lz, nth_In; auto). assert (LS : length (softmax (nth k zs [])) = n) by (unfold softmax; now rewrite map_length). rewrite (@list_seq (softmax (nth k zs [])) n LS). apply map_seq_ext. intros c Hc. now apply softmax_boltzmann.
Qed.
Print Assumptions C74_entropy.
Theorem C74_kl : forall n beta W o (zs : list (list R * list R)) r, (1 <= n)%nat -> zs <> [] -> length W = length zs -> (forall z, In z zs -> length (fst z) = n /\ length (snd z) = n) -> collect (fun z => kl_reg n beta (fst z) (snd z)) zs = Ok r ->
  policy_loss (Ok (Some o)) W (Some r) = Ok (Some (- o + beta * weighted_mean (fun k => KL (map (boltzmann n (fst (nth k zs ([], [])))) (seq 0 n)) (map (boltzmann n (snd (nth k zs ([], [])))) (seq 0 n))) (imp W) (length zs))).
Proof.
  intros n beta W o zs r Hn NE LW Lz E. rewrite (@collect_ok _ _ _ (fun z => beta * KL (softmax (fst z)) (softmax (snd z)))) in E by (intros z Iz; destruct (Lz z Iz); apply kl_reg_ok; auto). injection E as <-.
  rewrite (@loss_reg W o _ (length zs)); [|destruct zs; [congruence|cbn; lia]|auto|now rewrite map_length]. do 2 f_equal. f_equal. rewrite <- wmean_scal. apply wmean_ext. intros k Hk. rewrite (@nth_map_any _ _ (fun z => beta * KL (softmax (fst z)) (softmax (snd z))) zs k 0 ([], []) Hk). f_equal.
  destruct (Lz (nth k zs ([], [])) (nth_In _ _ Hk)) as [L1 L2]. set (z := nth k zs ([], [])) in *. assert (LS : forall y, length y = n -> softmax y = map (boltzmann n y) (seq 0 n)).
  { intros y Ly. assert (LS : length (softmax y) = n) by (unfold softmax; now rewrite map_length). rewrite (@list_seq (softmax y) n LS). apply map_seq_ext. intros c Hc. now apply softmax_boltzmann. }
  now rewrite !LS by auto.
Qed.
Print Assumptions C74_kl.
Example C74_ex : (forall z, In z [[0; 1]; [2; 3]] -> length z = 2%nat) /\ exists r, collect (entropy_reg 2 1) [[0; 1]; [2; 3]] = Ok r.
Proof. split; [intros z [<-|[<-|[]]]; reflexivity|]. eexists. apply (@collect_ok _ _ _ (fun z => - 1 * H (softmax z))). intros x [<-|[<-|[]]]; apply entropy_reg_ok; auto. Qed.
(** C74: [Regularizer.batch_eval] is meant for stochastic functions of both kinds (its error message says so): it evaluates the
    regularizer at the distribution of every state of a type-2 function, and fails for every type-1 function. *)
Theorem C74_batch_eval : forall (St P T : Type) (reg : P -> T) (g : St -> P) S A, exists r, batch_eval reg (SType2 g) S A = Ok r /\ length r = length S /\ forall k s, nth_error S k = Some s -> nth_error r k = Some (reg (g s)).
Proof. intros St P T reg g S A. eexists. split; [reflexivity|]. split; [now rewrite !map_length|]. intros k s E. rewrite map_map. now apply (@map_nth_error _ _ (fun x => reg (g x))). Qed.
Print Assumptions C74_batch_eval.
Theorem C74_batch_eval_type1_refuted : forall (St P T : Type) (reg : P -> T) (g : St -> list R -> P) S A, batch_eval reg (SType1 g) S A = Err EType.
Proof. intros. reflexivity. Qed.
Print Assumptions C74_batch_eval_type1_refuted.
