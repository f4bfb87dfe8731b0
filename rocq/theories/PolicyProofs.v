(** Policy objectives and their derivatives. *)
From Coq Require Import List Bool Arith Lia Reals Lra.
From Verif Require Import PyCommon CommonProofs UtilsModel UtilsSpec UtilsProofs2 UtilsProofs3 WrappersProofs DistModel DistSpec DistProofs LossModel LossSpec LossProofs QModel TDModel TDSpec TDProofs TDProofs2 TDProofs3 PolicyModel PolicySpec.
Import ListNotations.
Set Implicit Arguments.
Local Open Scope R_scope.

Lemma jmean_seq : forall (h : nat -> R) n, (1 <= n)%nat -> jmean (map h (seq 0 n)) = Some (total (map h (seq 0 n)) / INR n).
Proof. intros h n Hn. unfold jmean. destruct n; [lia|]. cbn [seq map]. rewrite rsum_total. do 2 f_equal. cbn [length]. now rewrite map_length, seq_length. Qed.
Lemma clip_w_length : forall W, length (clip_w W) = length W. Proof. intros. apply map_length. Qed.
Lemma imp_clip : forall W k, (k < length W)%nat -> nth k (clip_w W) 0 = imp W k. Proof. intros. now rewrite clip_w_nth. Qed.
Lemma imp_bounds : forall W k, 1/10 <= imp W k <= 10.
Proof. intros. unfold imp. split; [apply Rmin_glb; [apply Rmax_r|lra]|apply Rmin_r]. Qed.
Lemma imp_id : forall W k, 1/10 <= nth k W 0 <= 10 -> imp W k = nth k W 0.
Proof. intros W k H. unfold imp. rewrite Rmax_left, Rmin_left; lra. Qed.
Lemma zip_seq : forall (h : R -> R -> R) a b n, length a = n -> length b = n -> zipw h a b = map (fun k => h (nth k a 0) (nth k b 0)) (seq 0 n).
Proof. intros h a b n <- E. now rewrite zipw_nth_map by lia. Qed.
Lemma list_seq : forall (l : list R) n, length l = n -> l = map (fun k => nth k l 0) (seq 0 n).
Proof. intros l n <-. symmetry. apply map_nth_seq. Qed.
Lemma seq_len : forall (h : nat -> R) n, length (map h (seq 0 n)) = n. Proof. intros. now rewrite map_length, seq_length. Qed.
Lemma nth_seq_map : forall (h : nat -> R) n k, (k < n)%nat -> nth k (map h (seq 0 n)) 0 = h k.
Proof. intros. rewrite (@nth_map_any _ _ _ (seq 0 n) k 0 0%nat) by (now rewrite seq_length). now rewrite seq_nth. Qed.
Lemma zip_seq2 : forall (h : R -> R -> R) f g n, zipw h (map f (seq 0 n)) (map g (seq 0 n)) = map (fun k => h (f k) (g k)) (seq 0 n).
Proof. intros. rewrite (@zip_seq h _ _ n) by apply seq_len. apply map_ext_in. intros k Hk. apply in_seq in Hk. now rewrite !nth_seq_map by lia. Qed.
Lemma map_seq_ext : forall (f g : nat -> R) n, (forall k, (k < n)%nat -> f k = g k) -> map f (seq 0 n) = map g (seq 0 n).
Proof. intros f g n H. apply map_ext_in. intros k Hk. apply in_seq in Hk. apply H. lia. Qed.
Lemma wmean_ext : forall f g w n, (forall k, (k < n)%nat -> f k = g k) -> weighted_mean f w n = weighted_mean g w n.
Proof. intros f g w n H. unfold weighted_mean. f_equal. f_equal. apply map_seq_ext. intros. f_equal. auto. Qed.
Lemma wmean_le : forall f g w n, (forall k, (k < n)%nat -> 0 <= w k) -> (forall k, (k < n)%nat -> f k <= g k) -> (1 <= n)%nat -> weighted_mean f w n <= weighted_mean g w n.
Proof.
  intros f g w n Hw H Hn. unfold weighted_mean. apply Rmult_le_compat_r; [left; apply Rinv_0_lt_compat, lt_0_INR; lia|]. apply total_le. intros k Hk. apply in_seq in Hk. apply Rmult_le_compat_l; [apply Hw|apply H]; lia.
Qed.

Lemma vanilla_value : forall W Adv lp n, (1 <= n)%nat -> length W = n -> length Adv = n -> length lp = n ->
  vanilla_objective W Adv lp = Ok (Some (weighted_mean (fun k => nth k Adv 0 * nth k lp 0) (imp W) n)).
Proof.
  intros W Adv lp n Hn HW HA HL. unfold vanilla_objective, equal_shape. rewrite clip_w_length. cbn [forallb]. rewrite HW, HA, HL, Nat.eqb_refl. cbn [andb]. do 2 f_equal.
  rewrite (@zip_seq Rmult (clip_w W) Adv n) by (rewrite ?clip_w_length; auto). rewrite (@zip_seq _ _ lp n) by (rewrite ?seq_len; auto). rewrite jmean_seq by auto. unfold weighted_mean. do 2 f_equal. f_equal. apply map_seq_ext. intros k Hk. rewrite nth_seq_map by auto. rewrite imp_clip by lia. lra.
Qed.
Lemma vanilla_bad : forall W Adv lp, ~ (length Adv = length W /\ length lp = length W) -> vanilla_objective W Adv lp = Err EAssertion.
Proof.
  intros W Adv lp H. unfold vanilla_objective, equal_shape. rewrite clip_w_length. cbn [forallb]. destruct (Nat.eqb_spec (length Adv) (length W)); cbn [andb]; auto. destruct (Nat.eqb_spec (length lp) (length W)); cbn [andb]; auto. tauto.
Qed.

(** * PPO *)
Lemma ppo_min : forall adv eps r, 0 <= eps -> Rmin (adv * r) (adv * clip r (1 - eps) (1 + eps)) = ppo_term adv eps r.
Proof.
  intros adv eps r He. unfold ppo_term. destruct (Rle_dec 0 adv) as [A|A].
  - destruct (Rle_dec r (1 - eps)) as [B|B]; [rewrite (@clip_low r (1 - eps) (1 + eps)) by lra; rewrite (Rmin_left r) by lra; rewrite Rmin_left; [auto|apply Rmult_le_compat_l; lra]|].
    destruct (Rle_dec r (1 + eps)) as [C|C].
    + rewrite (@clip_in r (1 - eps) (1 + eps)) by lra. rewrite (Rmin_left r) by lra. apply Rmin_left. lra.
    + rewrite (@clip_high r (1 - eps) (1 + eps)) by lra. rewrite (Rmin_right r) by lra. apply Rmin_right. apply Rmult_le_compat_l; lra.
  - destruct (Rle_dec r (1 - eps)) as [B|B].
    + rewrite (@clip_low r (1 - eps) (1 + eps)) by lra. rewrite (Rmax_right r) by lra. apply Rmin_right. apply Rmult_le_compat_neg_l; lra.
    + rewrite (Rmax_left r) by lra. destruct (Rle_dec r (1 + eps)) as [C|C]; [rewrite (@clip_in r (1 - eps) (1 + eps)) by lra; apply Rmin_left; lra|].
      rewrite (@clip_high r (1 - eps) (1 + eps)) by lra. apply Rmin_left. apply Rmult_le_compat_neg_l; lra.
Qed.
Lemma ppo_value : forall eps W Adv logP lp n, 0 <= eps -> (1 <= n)%nat -> length W = n -> length Adv = n -> length logP = n -> length lp = n ->
  ppo_objective eps W Adv logP lp = Ok (Some (weighted_mean (fun k => ppo_term (nth k Adv 0) eps (pratio lp logP k)) (imp W) n)).
Proof.
  intros eps W Adv logP lp n He Hn HW HA HP HL. unfold ppo_objective, jzip. rewrite HL, HP, Nat.eqb_refl. cbn [bind]. unfold equal_shape. cbn zeta. cbn [forallb]. rewrite clip_w_length, map_length. rewrite (@zip_seq _ lp logP n) by auto. rewrite seq_len. rewrite HW, HA, Nat.eqb_refl. cbn [andb]. do 2 f_equal.
  rewrite map_map. rewrite (@list_seq Adv n HA) at 1 2. rewrite !zip_seq2. rewrite (@list_seq (clip_w W) n) by now rewrite clip_w_length. rewrite zip_seq2, jmean_seq by auto. unfold weighted_mean. do 2 f_equal. f_equal. apply map_seq_ext. intros k Hk. rewrite imp_clip by lia. rewrite ppo_min by auto.
  unfold pratio, Rminus, Rdiv. now rewrite exp_plus, exp_Ropp.
Qed.
Lemma ppo_bad : forall eps W Adv logP lp, (length lp <> length logP -> ppo_objective eps W Adv logP lp = Err EType) /\
  (length lp = length logP -> ~ (length Adv = length W /\ length lp = length W) -> ppo_objective eps W Adv logP lp = Err EAssertion).
Proof.
  intros eps W Adv logP lp. unfold ppo_objective, jzip. split; intros E.
  - apply Nat.eqb_neq in E. now rewrite E.
  - intros H. rewrite E, Nat.eqb_refl. cbn [bind]. unfold equal_shape. cbn zeta. cbn [forallb]. rewrite clip_w_length, map_length. rewrite zipw_length by auto.
    destruct (Nat.eqb_spec (length Adv) (length W)); cbn [andb]; auto. destruct (Nat.eqb_spec (length lp) (length W)); cbn [andb]; auto. exfalso. apply H. lia.
Qed.
Lemma ppo_term_le : forall adv eps r, ppo_term adv eps r <= adv * r.
Proof. intros. unfold ppo_term. destruct (Rle_dec 0 adv); [apply Rmult_le_compat_l; [lra|apply Rmin_l]|apply Rmult_le_compat_neg_l; [lra|apply Rmax_l]]. Qed.
Lemma ppo_term_in : forall adv eps r, 1 - eps <= r <= 1 + eps -> ppo_term adv eps r = adv * r.
Proof. intros. unfold ppo_term. destruct (Rle_dec 0 adv); [rewrite Rmin_left|rewrite Rmax_left]; lra. Qed.
Lemma ppo_term_eq_iff : forall adv eps r, ppo_term adv eps r = adv * r <-> (adv = 0 \/ (0 < adv /\ r <= 1 + eps) \/ (adv < 0 /\ 1 - eps <= r)).
Proof.
  intros adv eps r. unfold ppo_term. destruct (Rle_dec 0 adv) as [A|A].
  - destruct (Rle_dec r (1 + eps)) as [B|B].
    + rewrite Rmin_left by lra. split; auto. intros _. lra.
    + rewrite Rmin_right by lra. split; [|intros [->|[C|C]]; lra]. intros E. left. assert (adv * (r - (1 + eps)) = 0) as Z by lra. apply Rmult_integral in Z. lra.
  - destruct (Rle_dec (1 - eps) r) as [B|B].
    + rewrite Rmax_left by lra. split; auto. intros _. lra.
    + rewrite Rmax_right by lra. split; [|intros [->|[C|C]]; lra]. intros E. left. assert (adv * (r - (1 - eps)) = 0) as Z by lra. apply Rmult_integral in Z. lra.
Qed.
Lemma ppo_term_flat : forall adv eps r r', 0 <= eps -> no_incentive adv eps r -> (adv = 0 \/ (0 < adv /\ 1 + eps <= r') \/ (adv < 0 /\ r' <= 1 - eps)) -> ppo_term adv eps r' = ppo_term adv eps r.
Proof.
  intros adv eps r r' He H H'. unfold ppo_term. destruct (Rle_dec 0 adv) as [A|A].
  - destruct H as [->|[[B C]|[B C]]]; [lra| |lra]. destruct H' as [->|[[D E]|[D E]]]; [lra| |lra]. rewrite !Rmin_right; lra.
  - destruct H as [->|[[B C]|[B C]]]; [lra|lra|]. destruct H' as [->|[[D E]|[D E]]]; [lra|lra|]. rewrite !Rmax_right; lra.
Qed.

(** * Derivatives *)
Lemma deriv_loc : forall f g t l e, 0 < e -> (forall u, Rabs (u - t) < e -> f u = g u) -> derivable_pt_lim f t l -> derivable_pt_lim g t l.
Proof.
  intros f g t l e He H D eps Heps. destruct (D eps Heps) as [d Hd]. assert (M : 0 < Rmin d e) by (apply Rmin_pos; [apply cond_pos|auto]). exists (mkposreal _ M). intros h H0 Hh. cbn in Hh.
  assert (A : Rabs h < d) by (eapply Rlt_le_trans; [exact Hh|apply Rmin_l]). assert (B : Rabs h < e) by (eapply Rlt_le_trans; [exact Hh|apply Rmin_r]).
  rewrite <- (H (t + h)), <- (H t); [apply Hd; auto|rewrite Rminus_diag_eq, Rabs_R0; auto|replace (t + h - t) with h by lra; auto].
Qed.
Lemma near : forall f t l, derivable_pt_lim f t l -> forall e, 0 < e -> exists d, 0 < d /\ forall u, Rabs (u - t) < d -> Rabs (f u - f t) < e.
Proof.
  intros f t l D e He. assert (C : continuity_pt f t) by (apply derivable_continuous_pt; exists l; exact D). destruct (C e He) as [d [Hd H]]. exists d. split; auto. intros u Hu.
  destruct (Req_dec u t) as [->|N]; [rewrite Rminus_diag_eq, Rabs_R0; auto|]. specialize (H u). cbn in H. unfold R_dist in H. apply H. split; [split; [exact I|congruence]|exact Hu].
Qed.
Lemma near_lt : forall f t l c, derivable_pt_lim f t l -> f t < c -> exists d, 0 < d /\ forall u, Rabs (u - t) < d -> f u < c.
Proof. intros f t l c D H. destruct (@near f t l D (c - f t)) as [d [Hd N]]; [lra|]. exists d. split; auto. intros u Hu. specialize (N u Hu). apply Rabs_def2 in N. lra. Qed.
Lemma near_gt : forall f t l c, derivable_pt_lim f t l -> c < f t -> exists d, 0 < d /\ forall u, Rabs (u - t) < d -> c < f u.
Proof. intros f t l c D H. destruct (@near f t l D (f t - c)) as [d [Hd N]]; [lra|]. exists d. split; auto. intros u Hu. specialize (N u Hu). apply Rabs_def2 in N. lra. Qed.
Lemma ratio_deriv : forall l p t d, derivable_pt_lim l t d -> derivable_pt_lim (fun u => exp (l u) / exp p) t (exp (l t) / exp p * d).
Proof.
  intros l p t d D. assert (E : derivable_pt_lim (fun u => exp (l u)) t (exp (l t) * d)) by (apply (derivable_pt_lim_comp l exp); [exact D|apply derivable_pt_lim_exp]).
  pose proof (derivable_pt_lim_scal _ (/ exp p) _ _ E) as Sc. replace (exp (l t) / exp p * d) with (/ exp p * (exp (l t) * d)) by (unfold Rdiv; lra). eapply derivable_pt_lim_ext; [|exact Sc]. intros u. unfold mult_real_fct, Rdiv. lra.
Qed.
Lemma ppo_term_deriv : forall adv eps r t d x, 0 <= eps -> derivable_pt_lim r t d -> ppo_slope adv eps (r t) (x * r t) -> derivable_pt_lim (fun u => ppo_term adv eps (r u)) t (x * d) \/ r t = 0.
Proof.
  intros adv eps r t d x He D H. destruct (Req_dec (r t) 0) as [Z|Z]; [now right|left]. destruct H as [[I E]|[N E]].
  - assert (Ex : x = adv) by (apply Rmult_eq_reg_r with (r t); auto). subst x. destruct I as [[A B]|[A B]].
    + destruct (near_lt D B) as [e [H1 H2]]. apply (@deriv_loc (fun u => adv * r u) _ t _ e H1); [|now apply derivable_pt_lim_scal]. intros u Hu. specialize (H2 u Hu). unfold ppo_term. destruct (Rle_dec 0 adv); [rewrite Rmin_left; lra|lra].
    + destruct (near_gt D B) as [e [H1 H2]]. apply (@deriv_loc (fun u => adv * r u) _ t _ e H1); [|now apply derivable_pt_lim_scal]. intros u Hu. specialize (H2 u Hu). unfold ppo_term. destruct (Rle_dec 0 adv); [lra|rewrite Rmax_left; lra].
  - assert (Ex : x = 0) by (apply Rmult_eq_reg_r with (r t); auto; lra). subst x. rewrite Rmult_0_l. destruct N as [->|[[A B]|[A B]]].
    + apply (derivable_pt_lim_ext (fun _ => 0)); [|apply derivable_pt_lim_const]. intros u. unfold ppo_term. destruct (Rle_dec 0 0); lra.
    + destruct (near_gt D B) as [e [H1 H2]]. apply (@deriv_loc (fun u => adv * (1 + eps)) _ t _ e H1); [|apply derivable_pt_lim_const]. intros u Hu. specialize (H2 u Hu). unfold ppo_term. destruct (Rle_dec 0 adv); [rewrite Rmin_right; lra|lra].
    + destruct (near_lt D B) as [e [H1 H2]]. apply (@deriv_loc (fun u => adv * (1 - eps)) _ t _ e H1); [|apply derivable_pt_lim_const]. intros u Hu. specialize (H2 u Hu). unfold ppo_term. destruct (Rle_dec 0 adv); [lra|rewrite Rmax_right; lra].
Qed.
Lemma wmean_deriv : forall (f : nat -> R -> R) (df : nat -> R) w n t, (forall k, (k < n)%nat -> derivable_pt_lim (f k) t (df k)) -> derivable_pt_lim (fun u => weighted_mean (fun k => f k u) w n) t (weighted_mean df w n).
Proof.
  intros f df w n t H. unfold weighted_mean, Rdiv. rewrite (Rmult_comm _ (/ INR n)). apply (derivable_pt_lim_ext (fun u => / INR n * total (map (fun k => w k * f k u) (seq 0 n)))); [intros; lra|].
  apply derivable_pt_lim_scal. apply (@deriv_total nat (fun k u => w k * f k u) (fun k _ => w k * df k)). intros k Hk. apply in_seq in Hk. apply derivable_pt_lim_scal. apply H. lia.
Qed.
Lemma vanilla_deriv : forall W Adv lp n t d, (1 <= n)%nat -> length W = n -> length Adv = n -> moves n lp t d ->
  derivable_pt_lim (fun u => loss_value (vanilla_objective W Adv (lp u))) t (weighted_mean (fun k => nth k Adv 0 * d k) (imp W) n).
Proof.
  intros W Adv lp n t d Hn HW HA [L D]. apply (derivable_pt_lim_ext (fun u => weighted_mean (fun k => nth k Adv 0 * nth k (lp u) 0) (imp W) n)).
  - intros u. now rewrite (@vanilla_value W Adv (lp u) n) by auto.
  - apply (@wmean_deriv (fun k u => nth k Adv 0 * nth k (lp u) 0)). intros k Hk. apply derivable_pt_lim_scal. auto.
Qed.
Lemma ppo_deriv : forall eps W Adv logP lp n t d s, 0 <= eps -> (1 <= n)%nat -> length W = n -> length Adv = n -> length logP = n -> moves n lp t d ->
  (forall k, (k < n)%nat -> ppo_slope (nth k Adv 0) eps (pratio (lp t) logP k) (s k)) ->
  derivable_pt_lim (fun u => loss_value (ppo_objective eps W Adv logP (lp u))) t (weighted_mean (fun k => s k * d k) (imp W) n).
Proof.
  intros eps W Adv logP lp n t d s He Hn HW HA HP [L D] HS. apply (derivable_pt_lim_ext (fun u => weighted_mean (fun k => ppo_term (nth k Adv 0) eps (pratio (lp u) logP k)) (imp W) n)).
  - intros u. now rewrite (@ppo_value eps W Adv logP (lp u) n) by auto.
  - apply (@wmean_deriv (fun k u => ppo_term (nth k Adv 0) eps (pratio (lp u) logP k))). intros k Hk. pose proof (@ratio_deriv _ (nth k logP 0) _ _ (D k Hk)) as RD. cbv beta in RD. specialize (HS k Hk). unfold pratio in *. set (r := exp (nth k (lp t) 0) / exp (nth k logP 0)) in *.
    assert (P : 0 < r) by (apply Rmult_lt_0_compat; [apply exp_pos|apply Rinv_0_lt_compat, exp_pos]).
    destruct (@ppo_term_deriv (nth k Adv 0) eps (fun u => exp (nth k (lp u) 0) / exp (nth k logP 0)) t (r * d k) (s k / r) He RD) as [R1|R1]; [| |fold r in R1; lra].
    + fold r. replace (s k / r * r) with (s k) by (field; lra). exact HS.
    + replace (s k * d k) with (s k / r * (r * d k)) by (field; lra). exact R1.
Qed.
Lemma ppo_on_policy : forall eps W Adv lp n t d, 0 < eps -> (1 <= n)%nat -> length W = n -> length Adv = n -> moves n lp t d ->
  derivable_pt_lim (fun u => loss_value (ppo_objective eps W Adv (lp t) (lp u))) t (weighted_mean (fun k => nth k Adv 0 * d k) (imp W) n).
Proof.
  intros eps W Adv lp n t d He Hn HW HA M. apply (@ppo_deriv eps W Adv (lp t) lp n t d (fun k => nth k Adv 0)); auto; [lra|apply M|]. intros k Hk. assert (E : pratio (lp t) (lp t) k = 1) by (unfold pratio; field; pose proof (exp_pos (nth k (lp t) 0)); lra). rewrite E.
  unfold ppo_slope, incentive, no_incentive. destruct (Rtotal_order (nth k Adv 0) 0) as [A|[A|A]]; [left|right|left]; lra.
Qed.

(** * Categorical policies *)
Section Cat.
Variable n : nat.
Hypothesis Hn : (1 <= n)%nat.
Lemma sumexp_moves : forall z t d, moves n z t d -> derivable_pt_lim (fun u => sumexp (z u)) t (total (map (fun c => exp (nth c (z t) 0) * d c) (seq 0 n))).
Proof.
  intros z t d [L D]. apply (derivable_pt_lim_ext (fun u => total (map (fun c => exp (nth c (z u) 0)) (seq 0 n)))).
  - intros u. rewrite <- (@sumexp_total nat (fun c => nth c (z u) 0) (seq 0 n)). f_equal. symmetry. now apply list_seq.
  - apply (@deriv_total nat (fun c u => exp (nth c (z u) 0)) (fun c u => exp (nth c (z u) 0) * d c)). intros c Hc. apply in_seq in Hc. apply (derivable_pt_lim_comp (fun u => nth c (z u) 0) exp); [apply D; lia|apply derivable_pt_lim_exp].
Qed.
Lemma z_ne : forall z t d, moves n z t d -> forall u, z u <> [].
Proof. intros z t d [L _] u E. specialize (L u). rewrite E in L. cbn in L. clear - Hn L. lia. Qed.
Lemma logp_one_hot : forall z a, length z = n -> (a < n)%nat -> cat_log_proba n z (one_hot n a) = Ok (nth a z 0 - ln (sumexp z)).
Proof.
  intros z a L Ha. unfold cat_log_proba, check_n. rewrite one_hot_length, L, Nat.eqb_refl. cbn [bind]. rewrite dot_one_hot by (rewrite ?log_softmax_length; auto). unfold log_softmax. now rewrite (@nth_map0 (fun x => x - ln (sumexp z)) z a 0) by lia.
Qed.
Lemma logp_moves : forall z t d a, moves n z t d -> (a < n)%nat ->
  derivable_pt_lim (fun u => nth a (z u) 0 - ln (sumexp (z u))) t (d a - expectation n (fun c => nth c (softmax (z t)) 0) d).
Proof.
  intros z t d a M Ha. pose proof (sumexp_moves M) as SM. pose proof (sumexp_pos (z_ne M t)) as P. destruct M as [L D].
  assert (E : derivable_pt_lim (fun u => ln (sumexp (z u))) t (/ sumexp (z t) * total (map (fun c => exp (nth c (z t) 0) * d c) (seq 0 n)))) by (apply (derivable_pt_lim_comp (fun u => sumexp (z u)) ln); [exact SM|now apply derivable_pt_lim_ln]).
  replace (expectation n (fun c => nth c (softmax (z t)) 0) d) with (/ sumexp (z t) * total (map (fun c => exp (nth c (z t) 0) * d c) (seq 0 n))).
  - apply (derivable_pt_lim_minus (fun u => nth a (z u) 0) (fun u => ln (sumexp (z u)))); auto.
  - unfold expectation. rewrite <- total_scal. apply total_ext. intros c Hc. apply in_seq in Hc. rewrite nth_softmax by (rewrite L; lia). unfold Rdiv. lra.
Qed.
Lemma pi_moves : forall z t d a, moves n z t d -> (a < n)%nat ->
  derivable_pt_lim (fun u => nth a (softmax (z u)) 0) t (nth a (softmax (z t)) 0 * (d a - expectation n (fun c => nth c (softmax (z t)) 0) d)).
Proof.
  intros z t d a M Ha. pose proof (@logp_moves z t d a M Ha) as LM. pose proof (z_ne M) as NE. destruct M as [L D].
  assert (E : forall u, nth a (softmax (z u)) 0 = exp (nth a (z u) 0 - ln (sumexp (z u)))).
  { intros u. rewrite nth_softmax by (rewrite L; auto). unfold Rminus. rewrite exp_plus, exp_Ropp, exp_ln by (apply sumexp_pos, NE). reflexivity. }
  rewrite E at 1. eapply derivable_pt_lim_ext; [intros u; symmetry; apply E|]. apply (derivable_pt_lim_comp (fun u => nth a (z u) 0 - ln (sumexp (z u))) exp); [exact LM|apply derivable_pt_lim_exp].
Qed.
Lemma softmax_total : forall z, length z = n -> total (map (fun a => nth a (softmax z) 0) (seq 0 n)) = 1.
Proof. intros z L. rewrite <- (@list_seq (softmax z) n) by now rewrite softmax_length. apply softmax_dist. intros ->. cbn in L. clear - Hn L. lia. Qed.
(** The mean of the scores is zero. *)
Lemma score_zero : forall z d b, length z = n -> expectation n (fun a => nth a (softmax z) 0) (fun a => b * (d a - expectation n (fun c => nth c (softmax z) 0) d)) = 0.
Proof.
  intros z d b L. set (p := fun a => nth a (softmax z) 0). set (m := expectation n p d). unfold expectation. rewrite (@total_ext _ _ (fun a => b * (p a * d a + - m * p a))) by (intros; lra). rewrite total_scal, total_plus, total_scal. fold (expectation n p d). unfold p at 2. rewrite softmax_total by auto. fold m. lra.
Qed.
Lemma expected_gradient : forall z t d (adv : nat -> R) b, moves n z t d ->
  derivable_pt_lim (fun u => expectation n (fun a => nth a (softmax (z u)) 0) adv) t
    (expectation n (fun a => nth a (softmax (z t)) 0) (fun a => (adv a - b) * (d a - expectation n (fun c => nth c (softmax (z t)) 0) d))).
Proof.
  intros z t d adv b M. pose proof (@deriv_total nat (fun a u => nth a (softmax (z u)) 0 * adv a) (fun a u => nth a (softmax (z t)) 0 * (d a - expectation n (fun c => nth c (softmax (z t)) 0) d) * adv a) t (seq 0 n)) as DT. cbv beta in DT.
  assert (L : length (z t) = n) by apply M. pose proof (@score_zero (z t) d b L) as SZ. set (m := expectation n (fun c => nth c (softmax (z t)) 0) d) in *. unfold expectation. unfold expectation in SZ.
  replace (total (map (fun a => nth a (softmax (z t)) 0 * ((adv a - b) * (d a - m))) (seq 0 n))) with (total (map (fun a => nth a (softmax (z t)) 0 * (d a - m) * adv a) (seq 0 n))).
  - apply DT. intros a Ha. apply in_seq in Ha. rewrite Rmult_comm. eapply derivable_pt_lim_ext; [intros u; apply Rmult_comm|]. apply derivable_pt_lim_scal. apply pi_moves; auto. lia.
  - rewrite (@total_ext _ (fun a => nth a (softmax (z t)) 0 * ((adv a - b) * (d a - m))) (fun a => nth a (softmax (z t)) 0 * (d a - m) * adv a - nth a (softmax (z t)) 0 * (b * (d a - m)))) by (intros; lra). rewrite total_minus, SZ. lra.
Qed.
End Cat.
