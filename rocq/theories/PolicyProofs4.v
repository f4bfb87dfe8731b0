(** The n-step entropy with gaps, q-based objectives, log-propensities of sampled actions. *)
From Coq Require Import List Bool Arith Lia Reals Lra.
From Verif Require Import PyCommon CommonProofs UtilsModel UtilsSpec UtilsProofs2 UtilsProofs3 WrappersProofs DistModel DistSpec DistProofs LossModel LossSpec LossProofs QModel TDModel TDSpec TDProofs TDProofs2 TDProofs3 TracerModel TracerSpec TracerProofs TracerProofs2 PolicyModel PolicySpec PolicyProofs PolicyProofs2 PolicyProofs3.
Import ListNotations.
Set Implicit Arguments.
Local Open Scope R_scope.

Definition flat_ep (j : nat) : episode nat nat := map (fun i => (mkStep i 0%nat 0 1 true, 0)) (seq 0 (j + 1)).
Lemma flat_length : forall j, length (flat_ep j) = (j + 1)%nat. Proof. intros. unfold flat_ep. now rewrite map_length, seq_length. Qed.
Lemma flat_spec : forall n j, (1 <= n)%nat -> exists y, nstep_spec n 1 true (flat_ep j) true 0 y.
Proof.
  intros n j Hn. assert (NE : flat_ep j <> []) by (intros E; pose proof (flat_length j) as L; rewrite E in L; cbn in L; lia). assert (V : valid_episode (flat_ep j)).
  { intros x r Hx. unfold flat_ep in Hx. apply in_map_iff in Hx. destruct Hx as [i [E _]]. injection E as <- <-. unfold valid_step. cbn. repeat split; lra. }
  destruct (@nstep_flush_episode nat nat n 1 true (flat_ep j) Hn ltac:(lra) NE V) as [ys [_ F]]. rewrite flat_length in F. replace (j + 1)%nat with (S j) in F by lia. cbn [seq] in F. inversion F; subst. eauto.
Qed.
Lemma nse_gap_wrong : forall n beta gamma ns, (1 <= n)%nat -> beta <> 0 -> gamma <> 0 -> ns <> [] -> ascending ns -> (forall k, In k ns -> (k <= n)%nat) -> ns <> seq 0 (length ns) ->
  exists (ep : episode nat nat) y v, nstep_spec n 1 true ep true 0 y /\ nstep_entropy 2 beta gamma ns (fun _ => 1) (x_extra y) = Ok (Some v) /\ v <> - beta * valid_bonus gamma ns (fun k => hstate (fun _ => 1) ep (0 + k)) (length ep - 1 - 0).
Proof.
  intros n beta gamma ns Hn Hb Hg NE A HN Hs. destruct (@gap ns 0 A) as [E|(j & x & rest & E & Hj & Hr)]; [intros; lia|congruence|]. destruct (@flat_spec n j Hn) as [y Sp].
  exists (flat_ep j), y. eexists. split; [exact Sp|]. split; [apply (@nse_eval nat nat n gamma beta 1 ns (fun _ => 1) (flat_ep j) true 0 y Sp NE); intros k Hk; split; [auto|now apply last_ascending]|].
  assert (HS : forall i, (i < j + 1)%nat -> hstate (fun _ : nat => 1) (flat_ep j) i = 1). { intros i Hi. unfold hstate. destruct (nth_error (flat_ep j) i) as [[? ?]|] eqn:EE; auto. apply nth_error_None in EE. rewrite flat_length in EE. lia. }
  rewrite flat_length. cbn [Nat.add andb]. replace (j + 1 - 1)%nat with j by lia. rewrite Nat.sub_0_r. rewrite E. rewrite bonus_app by (intros k Hk; apply in_seq in Hk; apply Nat.leb_gt; lia). cbn [bonus orb]. rewrite (proj2 (Nat.leb_le j x)) by lia. rewrite bonus_true.
  unfold valid_bonus. rewrite filter_app. cbn [filter]. rewrite (proj2 (Nat.leb_gt x j)) by lia.
  assert (F1 : filter (fun k => Nat.leb k j) (seq 0 j) = seq 0 j). { rewrite (@filter_ext_in _ _ (fun _ => true)); [generalize (seq 0 j) as l; induction l as [|z l IH]; auto; cbn; now rewrite IH|]. intros k Hk. apply in_seq in Hk. apply Nat.leb_le. lia. }
  assert (F2 : filter (fun k => Nat.leb k j) rest = []). { rewrite (@filter_ext_in _ _ (fun _ => false)); [generalize rest as l; induction l as [|z l IH]; auto|]. intros k Hk. apply Nat.leb_gt. specialize (Hr k Hk). lia. }
  rewrite F1, F2, app_nil_r. rewrite (@total_ext _ (fun k => gamma ^ k * hstate (fun _ => 1) (flat_ep j) (Nat.min k j)) (fun k => gamma ^ k * hstate (fun _ => 1) (flat_ep j) k)) by (intros k Hk; apply in_seq in Hk; do 2 f_equal; lia).
  rewrite (HS (Nat.min x j)) by lia. set (T := total _). pose proof (@pow_nonzero gamma x Hg) as P. intros C. assert (Z : beta * gamma ^ x = 0) by lra. apply Rmult_integral in Z. tauto.
Qed.

(** * Q-based objectives *)
Lemma weighted_q_ok : forall W Q n, (1 <= n)%nat -> length W = n -> length Q = n -> weighted_q W Q = Ok (Some (weighted_mean (fun k => nth k Q 0) (imp W) n)).
Proof.
  intros W Q n Hn HW HQ. unfold weighted_q, equal_shape. cbn zeta. cbn [forallb]. rewrite clip_w_length, HW, HQ, Nat.eqb_refl. cbn [andb]. do 2 f_equal. rewrite (@zip_seq Rmult (clip_w W) Q n) by (rewrite ?clip_w_length; auto). rewrite jmean_seq by auto. unfold weighted_mean. do 2 f_equal. f_equal. apply map_seq_ext. intros k Hk. now rewrite imp_clip by lia.
Qed.
Lemma dpg_value : forall (St : Type) mode (f : St -> list R -> R) W S, S <> [] -> length W = length S ->
  deterministic_pg mode (Type1 f) W S = Ok (Some (weighted_mean (fun k => nth k (map (fun s => f s (mode s)) S) 0) (imp W) (length S))).
Proof. intros St mode f W S NE L. unfold deterministic_pg. apply weighted_q_ok; rewrite ?map_length; auto. destruct S; [congruence|cbn; lia]. Qed.
Lemma spg_value : forall (St : Type) D sample (qs : list (qfun St R)) (val : qfun St R -> St -> R) W S, qs <> [] -> S <> [] -> length W = length S ->
  (forall q, In q qs -> eval1 D q S (map sample S) = Ok (map (val q) S)) ->
  exists m : nat -> R, soft_pg D sample qs W S = Ok (Some (weighted_mean m (imp W) (length S))) /\
    forall k s, nth_error S k = Some s -> is_minimum_of (map (fun q => val q s) qs) (m k).
Proof.
  intros St D sample qs val W S NQ NS L Hq. unfold soft_pg. destruct qs as [|q0 qs0]; [congruence|]. set (qs := q0 :: qs0) in *. rewrite (@collect_ok _ _ _ (fun q => map (val q) S)) by auto. cbn [bind].
  exists (fun k => rowmin (map (fun Q => nth k Q 0) (map (fun q => map (val q) S) qs))). split.
  - rewrite (@weighted_q_ok W _ (length S)) by (rewrite ?seq_len; auto; try (destruct S; [congruence|cbn; lia])). do 2 f_equal. apply wmean_ext. intros k Hk. now rewrite nth_seq_map.
  - intros k s Hs. rewrite map_map. replace (map (fun x => nth k (map (val x) S) 0) qs) with (map (fun q => val q s) qs) by (apply map_ext; intros q; symmetry; now apply nth_map_error). apply rowmin_spec. discriminate.
Qed.
Lemma spg_type1 : forall (St : Type) D sample (fs : list (St -> list R -> R)) W S, fs <> [] -> S <> [] -> length W = length S ->
  exists m : nat -> R, soft_pg D sample (map Type1 fs) W S = Ok (Some (weighted_mean m (imp W) (length S))) /\
    forall k s, nth_error S k = Some s -> is_minimum_of (map (fun f => f s (sample s)) fs) (m k).
Proof.
  intros St D sample fs W S NF NS L. destruct (@spg_value St D sample (map Type1 fs) (fun q s => match q with Type1 f => f s (sample s) | Type2 _ => 0 end) W S) as [m [E H]]; auto; [now destruct fs| |].
  - intros q Hq. apply in_map_iff in Hq. destruct Hq as [f [<- _]]. unfold eval1, function_type1. clear. induction S as [|s S IH]; auto. cbn [map vmap2]. cbn in IH. rewrite IH. reflexivity.
  - exists m. split; auto. intros k s Hs. specialize (H k s Hs). now rewrite map_map in H.
Qed.
Lemma spg_type2 : forall (St : Type) n sample (qs : list (qfun St R)) W S, (1 <= n)%nat -> qs <> [] -> S <> [] -> length W = length S -> (forall q, In q qs -> width n q /\ type2 q) -> (forall s, length (sample s) = n) ->
  exists m : nat -> R, soft_pg (Some n) sample qs W S = Ok (Some (weighted_mean m (imp W) (length S))) /\
    forall k s, nth_error S k = Some s -> is_minimum_of (map (fun q => expectation n (fun a => nth a (sample s) 0) (qval n q s)) qs) (m k).
Proof.
  intros St n sample qs W S Hn NQ NS L HW HS. destruct (@spg_value St (Some n) sample qs (fun q s => qat q s (sample s)) W S) as [m [E H]]; auto.
  - intros q Hq. rewrite (@eval1_ok St n q S (map sample S)); [now rewrite map_combine_self|apply HW; auto|now rewrite map_length|]. intros a Ha. apply in_map_iff in Ha. destruct Ha as [s [<- _]]. auto.
  - exists m. split; auto. intros k s Hs. specialize (H k s Hs). replace (map (fun q => expectation n (fun a => nth a (sample s) 0) (qval n q s)) qs) with (map (fun q => qat q s (sample s)) qs); auto.
    apply map_ext_in. intros q Hq. destruct (HW q Hq) as [Wq Tq]. rewrite (@qat_mix2 St n q s (sample s) Wq Tq) by auto. rewrite dot_seq by now rewrite seq_len. rewrite HS. unfold expectation. apply total_ext. intros k0 Hk0. apply in_seq in Hk0. now rewrite nth_seq_map by lia.
Qed.

(** * The loss *)
Lemma loss_plain : forall W o, policy_loss (Ok (Some o)) W None = Ok (Some (- o)). Proof. reflexivity. Qed.
Lemma loss_reg : forall W o r n, (1 <= n)%nat -> length W = n -> length r = n -> policy_loss (Ok (Some o)) W (Some r) = Ok (Some (- o + weighted_mean (fun k => nth k r 0) (imp W) n)).
Proof.
  intros W o r n Hn HW Hr. unfold policy_loss, jzip. cbn [bind]. rewrite clip_w_length, HW, Hr, Nat.eqb_refl. cbn [bind]. rewrite (@zip_seq Rmult (clip_w W) r n) by (rewrite ?clip_w_length; auto). rewrite jmean_seq by auto. do 3 f_equal. unfold weighted_mean. f_equal. f_equal. apply map_seq_ext. intros k Hk. now rewrite imp_clip by lia.
Qed.
Lemma wmean_scal : forall c f w n, weighted_mean (fun k => c * f k) w n = c * weighted_mean f w n.
Proof. intros. unfold weighted_mean. rewrite (@total_ext _ _ (fun i => c * (w i * f i))) by (intros; lra). rewrite total_scal. unfold Rdiv. lra. Qed.
(** With an entropy regularizer, one row of logits per sample. *)
Lemma entropy_reg_ok : forall n beta z, (1 <= n)%nat -> length z = n -> entropy_reg n beta z = Ok (- beta * H (softmax z)).
Proof.
  intros n beta z Hn L. assert (NE : z <> []) by (intros ->; cbn in L; lia). unfold entropy_reg, cat_entropy, check_n. rewrite L, Nat.eqb_refl. cbn [bind]. do 2 f_equal. rewrite exp_log_softmax by auto. rewrite dot_expect by now rewrite softmax_length, map_length, log_softmax_length. unfold H, expect. apply total_ext. intros k Hk. apply in_seq in Hk. rewrite softmax_length in Hk.
  rewrite (@nth_map0 Ropp _ k 0) by (rewrite log_softmax_length; lia). rewrite nth_log_softmax by (auto; lia). reflexivity.
Qed.
Lemma kl_reg_ok : forall n beta z z', (1 <= n)%nat -> length z = n -> length z' = n -> kl_reg n beta z z' = Ok (beta * KL (softmax z) (softmax z')).
Proof.
  intros n beta z z' Hn L L'. assert (NE : z <> []) by (intros ->; cbn in L; lia). assert (NE' : z' <> []) by (intros ->; cbn in L'; lia). unfold kl_reg, cat_kl, check_n. rewrite L, L', Nat.eqb_refl. cbn [bind]. do 2 f_equal. rewrite exp_log_softmax by auto.
  rewrite dot_expect by (rewrite softmax_length, zipw_length; rewrite !log_softmax_length; lia). unfold KL, expect. apply total_ext. intros k Hk. apply in_seq in Hk. rewrite softmax_length in Hk. rewrite (@nth_zipw Rminus _ _ k 0 0) by (rewrite ?log_softmax_length; lia). rewrite !nth_log_softmax by (auto; lia). reflexivity.
Qed.

(** * kl_div_old *)
Lemma kl_old_value : forall logP lp n, (1 <= n)%nat -> length logP = n -> length lp = n -> kl_div_old logP lp = Ok (Some (total (map (fun k => exp (nth k logP 0) * (nth k logP 0 - nth k lp 0)) (seq 0 n)) / INR n)).
Proof. intros logP lp n Hn L L'. unfold kl_div_old, jzip. rewrite L, L', Nat.eqb_refl. cbn [bind]. now rewrite (@zip_seq _ logP lp n), jmean_seq by auto. Qed.

(** * Log-propensity of the sampled action *)
Lemma total_lt : forall (A : Type) (f g : A -> R) l a, (forall x, In x l -> f x <= g x) -> In a l -> f a < g a -> total (map f l) < total (map g l).
Proof.
  intros A f g l a Hle Ha Hlt. pose proof (@total_le A f g l Hle) as LE. destruct (Req_dec (total (map f l)) (total (map g l))) as [E|N]; [|lra]. pose proof (@total_le_eq A f g l Hle E a Ha). lra.
Qed.
Section Call.
Variables (n : nat) (tau : R) (z us : list R).
Hypothesis Hn : (1 <= n)%nat.
Hypothesis Ht : 0 < tau.
Hypothesis Lz : length z = n.
Hypothesis Lu : length us = n.
Lemma logpi_order : forall i j, (i < n)%nat -> (j < n)%nat -> (ln (nth i (softmax z) 0) < ln (nth j (softmax z) 0) <-> nth i z 0 < nth j z 0).
Proof.
  intros i j Hi Hj. assert (NE : z <> []) by (intros E; rewrite E in Lz; cbn in Lz; clear - Lz Hn; lia). pose proof (sumexp_pos NE) as P. rewrite <- !nth_log_softmax by (auto; rewrite Lz; auto). unfold log_softmax. rewrite !(@nth_map0 (fun x => x - ln (sumexp z)) z _ 0) by (rewrite Lz; auto). split; intros; lra.
Qed.
Lemma call_strict : forall a i, maximal_at z a -> (i < n)%nat -> nth i z 0 < nth a z 0 -> dot (Xrow tau z us) (log_softmax z) < ln (nth a (softmax z) 0).
Proof.
  intros a i [Ha HM] Hi Hlt. rewrite Lz in *. pose proof (@Xrow_length n tau z us Hn Lz Lu) as LX. rewrite dot_seq by (rewrite LX, log_softmax_length; auto). rewrite LX. destruct (@Xrow_dist n tau z us Hn Lz Lu) as [P T]. rewrite (@list_seq (Xrow tau z us) n LX) in T.
  assert (B : forall k, (k < n)%nat -> 0 < nth k (Xrow tau z us) 0) by (intros k Hk; apply P, nth_In; now rewrite LX). set (La := ln (nth a (softmax z) 0)).
  replace La with (total (map (fun k => nth k (Xrow tau z us) 0 * La) (seq 0 n))) by (rewrite (@total_ext _ _ (fun k => La * nth k (Xrow tau z us) 0)) by (intros; lra); rewrite total_scal, T; lra).
  assert (LE : forall k, (k < n)%nat -> ln (nth k (softmax z) 0) <= La). { intros k Hk. unfold La. destruct (Rle_dec (ln (nth k (softmax z) 0)) (ln (nth a (softmax z) 0))) as [|G]; auto. exfalso. specialize (HM k Hk). assert (L : ln (nth a (softmax z) 0) < ln (nth k (softmax z) 0)) by lra. apply logpi_order in L; auto. lra. }
  apply (@total_lt _ _ _ _ i).
  - intros k Hk. apply in_seq in Hk. rewrite (@logpi_nth n z us Hn Lz Lu) by lia. apply Rmult_le_compat_l; [left; apply B; lia|apply LE; lia].
  - apply in_seq. lia.
  - rewrite (@logpi_nth n z us Hn Lz Lu) by auto. apply Rmult_lt_compat_l; [now apply B|]. apply logpi_order; auto.
Qed.
End Call.
(** With equal draws the most probable action is taken. *)
Lemma call_equal_draws : forall n tau z gs, (1 <= n)%nat -> 0 < tau -> length z = n -> noise n gs -> exists a, policy_call n tau z (repeat (1/2) n) gs = Ok (a, dot (Xrow tau z (repeat (1/2) n)) (log_softmax z)) /\ maximal_at z a.
Proof.
  intros n tau z gs Hn Ht L N. destruct (@call_eval n tau z (repeat (1/2) n) gs Hn L (repeat_length _ _) N) as [a [E M]]. exists a. split; auto. unfold Xrow in M. apply maximal_softmax in M. apply maximal_map in M; [|intros x y _ _; now apply div_mono].
  assert (Z : zipw Rplus (map gumbel (repeat (1/2) n)) (log_softmax z) = map (fun x => gumbel (1/2) + (x - ln (sumexp z))) z).
  { unfold log_softmax. generalize (ln (sumexp z)) as c. clear - L. revert n L. induction z as [|x z IH]; intros [|n] L c; cbn in L; try lia; auto. cbn [repeat map zipw]. f_equal. apply IH. lia. }
  rewrite Z in M. apply maximal_map in M; auto. intros; lra.
Qed.
(** The sampled action maximises gumbel + log pi. *)
Lemma call_gumbel : forall n tau z us a, (1 <= n)%nat -> 0 < tau -> length z = n -> length us = n -> maximal_at (Xrow tau z us) a -> (a < n)%nat /\ forall c, (c < n)%nat -> gumbel (nth c us 0) + ln (nth c (softmax z) 0) <= gumbel (nth a us 0) + ln (nth a (softmax z) 0).
Proof.
  intros n tau z us a Hn Ht L Lu M. unfold Xrow in M. apply maximal_softmax in M. apply maximal_map in M; [|intros x y _ _; now apply div_mono]. destruct M as [Ha HM]. rewrite zipw_length in * by (rewrite map_length, log_softmax_length; lia). rewrite map_length, Lu in *. split; auto. intros c Hc. specialize (HM c Hc).
  rewrite !(@nth_zipw Rplus _ _ _ 0 0) in HM by (rewrite ?map_length, ?log_softmax_length; lia). rewrite !(@nth_map0 gumbel us _ 0) in HM by lia. rewrite !(@logpi_nth n z us Hn L Lu) in HM by auto. exact HM.
Qed.

(** * In terms of the Boltzmann probabilities *)
Lemma softmax_boltzmann : forall n z a, length z = n -> (a < n)%nat -> nth a (softmax z) 0 = boltzmann n z a.
Proof. intros n z a L Ha. rewrite nth_softmax by lia. unfold boltzmann. rewrite <- (@sumexp_total nat (fun c => nth c z 0) (seq 0 n)). now rewrite <- (@list_seq z n L). Qed.
Lemma derivable_pt_lim_same : forall (f g : R -> R) t l, (forall u, f u = g u) -> derivable_pt_lim f t l -> derivable_pt_lim g t l.
Proof. intros f g t l E D e He. destruct (D e He) as [d Hd]. exists d. intros h H1 H2. rewrite <- !E. now apply Hd. Qed.
Lemma expectation_ext : forall n p p' h h', (forall a, (a < n)%nat -> p a = p' a) -> (forall a, (a < n)%nat -> h a = h' a) -> expectation n p h = expectation n p' h'.
Proof. intros n p p' h h' H1 H2. unfold expectation. f_equal. apply map_seq_ext. intros a Ha. now rewrite H1, H2. Qed.
Lemma logp_boltzmann : forall n z a, (1 <= n)%nat -> length z = n -> (a < n)%nat -> cat_log_proba n z (one_hot n a) = Ok (ln (boltzmann n z a)).
Proof.
  intros n z a Hn L Ha. rewrite logp_one_hot by auto. assert (NE : z <> []) by (intros ->; cbn in L; lia). rewrite <- softmax_boltzmann by auto. rewrite <- nth_log_softmax by (auto; lia). unfold log_softmax. now rewrite (@nth_map0 (fun x => x - ln (sumexp z)) z a 0) by lia.
Qed.
Lemma score : forall n z t d a, (1 <= n)%nat -> moves n z t d -> (a < n)%nat -> derivable_pt_lim (fun u => ln (boltzmann n (z u) a)) t (d a - expectation n (boltzmann n (z t)) d).
Proof.
  intros n z t d a Hn M Ha. pose proof (@logp_moves n Hn z t d a M Ha) as D. destruct M as [L _]. rewrite (@expectation_ext n _ (boltzmann n (z t)) d d) in D; [|intros; now apply softmax_boltzmann|auto]. eapply derivable_pt_lim_same; [|exact D]. intros u. cbn beta. pose proof (@logp_one_hot n Hn (z u) a (L u) Ha) as E1. pose proof (@logp_boltzmann n (z u) a Hn (L u) Ha) as E2. congruence.
Qed.
Lemma policy_gradient : forall n z t d (adv : nat -> R) b w, (1 <= n)%nat -> moves n z t d -> 1/10 <= w <= 10 ->
  exists g : nat -> R, (forall a, (a < n)%nat -> derivable_pt_lim (fun u => loss_value (vanilla_objective [w] [adv a - b] [ln (boltzmann n (z u) a)])) t (g a)) /\
    derivable_pt_lim (fun u => w * expectation n (boltzmann n (z u)) adv) t (expectation n (boltzmann n (z t)) g).
Proof.
  intros n z t d adv b w Hn M Hw. exists (fun a => w * ((adv a - b) * (d a - expectation n (boltzmann n (z t)) d))). split.
  - intros a Ha. pose proof (@vanilla_deriv [w] [adv a - b] (fun u => [ln (boltzmann n (z u) a)]) 1 t (fun _ => d a - expectation n (boltzmann n (z t)) d)) as V. cbv beta in V. unfold weighted_mean in V. cbn [seq map] in V. rewrite total_cons in V. change (total []) with 0 in V. change (INR 1) with 1 in V. rewrite imp_id in V by (cbn; lra). cbn [nth] in V.
    match type of V with _ -> _ -> _ -> _ -> derivable_pt_lim _ _ ?r => replace (w * ((adv a - b) * (d a - expectation n (boltzmann n (z t)) d))) with r by (unfold Rdiv; rewrite Rinv_1; lra) end. apply V; auto. split; auto. intros [|k] Hk; [cbn [nth]; now apply score|lia].
  - pose proof (@expected_gradient n Hn z t d adv b M) as E. assert (L : forall u, length (z u) = n) by apply M. assert (SB : forall u a, (a < n)%nat -> nth a (softmax (z u)) 0 = boltzmann n (z u) a) by (intros; apply softmax_boltzmann; auto).
    assert (Ed : expectation n (fun c => nth c (softmax (z t)) 0) d = expectation n (boltzmann n (z t)) d) by (apply expectation_ext; auto). rewrite Ed in E.
    replace (expectation n (boltzmann n (z t)) (fun a => w * ((adv a - b) * (d a - expectation n (boltzmann n (z t)) d)))) with (w * expectation n (fun a => nth a (softmax (z t)) 0) (fun a => (adv a - b) * (d a - expectation n (boltzmann n (z t)) d))).
    + apply (@derivable_pt_lim_same (fun u => w * expectation n (fun a => nth a (softmax (z u)) 0) adv)); [intros u; f_equal; apply expectation_ext; auto|]. now apply derivable_pt_lim_scal.
    + set (m := expectation n (boltzmann n (z t)) d). unfold expectation. rewrite <- total_scal. f_equal. apply map_seq_ext. intros a Ha. rewrite SB by auto. lra.
Qed.
