(** DeterministicPG: value of the objective, its gradient, one update. *)
From Coq Require Import List Lia Bool Arith Reals Lra.
From Verif Require Import PyCommon CommonProofs UtilsModel UtilsSpec UtilsProofs2 UtilsProofs3 DistModel DistSpec DistProofs LossModel LossSpec LossProofs QModel TDModel TDSpec TDProofs TDProofs2 TDProofs3 CoreModel CoreSpec CoreProofs CoreProofs2 TracerModel WorkerModel PolicyModel PolicySpec PolicyProofs PolicyProofs4 CompProofs2 CompProofs4 CompProofs8
  LearnModel LearnSpec LearnProofs LearnProofs2 LearnProofs3 PgModel PgSpec PgProofs PgProofs2 PgProofs3 PgProofs4 PpoSpec PpoProofs DpgModel DpgSpec.
Import ListNotations.
Set Implicit Arguments.
Local Open Scope R_scope.

Lemma softmax_shift : forall z c, softmax (map (fun x => x - c) z) = softmax z.
Proof.
  intros z c. unfold softmax, sumexp. rewrite !map_map. assert (E : rsum (map (fun x => exp (x - c)) z) = exp (- c) * rsum (map exp z)).
  { rewrite !total_rsum, <- total_scal. apply total_ext. intros x _. unfold Rminus. rewrite exp_plus. ring. }
  rewrite E. apply map_ext. intros x. unfold Rminus. rewrite exp_plus. unfold Rdiv. rewrite Rinv_mult. assert (Z := exp_pos (- c)). set (e := exp (- c)) in *. match goal with |- _ = _ * ?i => transitivity (exp x * (e * / e) * i); [ring|] end. rewrite Rinv_r by lra. ring.
Qed.
Lemma mode_relaxed : forall n tau z, 0 < tau -> length z = n -> exists m, cat_mode n tau z = Ok m /\ length m = n /\ forall a, (a < n)%nat -> nth a m 0 = relaxed n tau z a.
Proof.
  intros n tau z Ht L. unfold cat_mode, check_n. rewrite L, Nat.eqb_refl. cbn [bind]. eexists. split; [reflexivity|]. unfold log_softmax. rewrite map_map. set (c := ln (sumexp z)).
  rewrite (map_ext (fun x => (x - c) / tau) (fun x => x / tau - c / tau)) by (intros; field; lra). rewrite <- (map_map (fun x => x / tau) (fun y => y - c / tau)). rewrite softmax_shift. split; [unfold softmax; now rewrite !map_length|].
  intros a Ha. rewrite <- (@boltzmann_softmax n) by (rewrite ?map_length; auto). unfold boltzmann, relaxed. rewrite (@nth_map_any _ _ (fun x => x / tau) z a 0 0) by lia. f_equal. apply f_equal, map_ext_in. intros k Hk. apply in_seq in Hk. rewrite (@nth_map_any _ _ (fun x => x / tau) z k 0 0) by lia. reflexivity.
Qed.
(** The same as the probabilities of a policy with divided logits. *)
Definition netT (tau : R) (net : list R -> nat -> list R) (th : list R) (s : nat) : list R := map (fun z => z / tau) (net th s).
Lemma relaxed_prob : forall nA tau net th s a, length (net th s) = nA -> (a < nA)%nat -> relaxed nA tau (net th s) a = prob nA (netT tau net) th s a.
Proof.
  intros nA tau net th s a L Ha. unfold relaxed, prob, boltzmann, netT. rewrite (@nth_map_any _ _ (fun x => x / tau) (net th s) a 0 0) by lia. f_equal. apply f_equal, map_ext_in. intros k Hk. apply in_seq in Hk. rewrite (@nth_map_any _ _ (fun x => x / tau) (net th s) k 0 0) by lia. reflexivity.
Qed.

Section Grad.
Variables nS nA N : nat.
Variable tau : R.
Variable net : list R -> nat -> list R.
Variable score : list R -> nat -> nat -> nat -> R.
Hypothesis HT : 0 < tau.
Hypothesis SM : smooth_policy nA N (netT tau net) score.
Hypothesis HL : forall th s, length th = N -> length (net th s) = nA.
Notation prob := (prob nA (netT tau net)).
Notation tq := (tq nA).
Notation loss := (dpg_loss nA tau net (table1 nS)).
Definition value (qth th : list R) (s : nat) : R := expectation nA (prob th s) (tq qth s).
Lemma value_worth : forall qth th s, length th = N -> value qth th s = worth nA tau (net th s) (tq qth s).
Proof. intros qth th s L. unfold value, worth. apply expectation_ext; auto. intros a Ha. symmetry. apply relaxed_prob; auto. Qed.
Lemma mean_seq : forall (A : Type) (f : A -> R) (d : A) l, mean (map f l) = total (map (fun k => f (nth k l d)) (seq 0 (length l))) / INR (length l).
Proof. intros A f d l. unfold mean. rewrite map_length. f_equal. f_equal. clear. induction l as [|x l IH]; [reflexivity|]. cbn [length seq map nth]. f_equal. rewrite <- seq_shift, map_map. exact IH. Qed.
Lemma loss_rows : forall qth b rows th, length qth = (nS * nA)%nat -> has_states nS b rows -> length th = N ->
  loss qth b th = Ok (Some (- mean (map (fun r => weight (snd r) * value qth th (fst r)) rows))).
Proof.
  intros qth b rows th Lq (NE & H1 & H2 & H3) L. destruct (@table1_tabular nS nA qth Lq) as [_ T]. unfold dpg_loss, dpg_objective. cbn [table1]. cbn [table1 qat] in T. rewrite H1, H2.
  rewrite (@collect_ok _ _ _ (value qth th)).
  - cbn [bind]. assert (L1 : (1 <= length rows)%nat) by (destruct rows; [congruence|cbn; lia]). rewrite (@weighted_q_ok (map snd rows) (map (value qth th) (map fst rows)) (length rows)) by (rewrite ?map_length; auto). unfold policy_loss. cbn [bind option_map]. do 3 f_equal.
    rewrite (@mean_seq _ _ (0%nat, 0)). unfold weighted_mean. f_equal. f_equal. apply map_ext_in. intros k Hk. apply in_seq in Hk. rewrite map_map. rewrite (@nth_map_any _ _ (fun x => value qth th (fst x)) rows k 0 (0%nat, 0)) by lia. unfold imp. rewrite (@nth_map_any _ _ snd rows k 0 (0%nat, 0)) by lia. reflexivity.
  - intros s Hs. apply in_map_iff in Hs. destruct Hs as (r & <- & Hr). specialize (H3 r Hr). destruct (@mode_relaxed nA tau (net th (fst r)) HT (HL _ _ L)) as (m & E & Lm & M). rewrite E. cbn [bind]. f_equal. rewrite (T _ m H3 Lm). rewrite dot_seq by (now rewrite map_length, seq_length). rewrite Lm. unfold value, expectation. f_equal. apply map_ext_in. intros a Ha. apply in_seq in Ha.
    rewrite M by lia. rewrite (@nth_map_any _ _ _ (seq 0 nA) a 0 0%nat) by (rewrite seq_length; lia). rewrite seq_nth by lia. rewrite relaxed_prob by (auto; lia). reflexivity.
Qed.
Definition slope_at (qth th : list R) (s i : nat) : R := expectation nA (prob th s) (fun a => score th s a i * tq qth s a).
Lemma value_deriv : forall qth th s i, length th = N -> (i < N)%nat -> derivable_pt_lim (fun t => value qth (firstn i th ++ t :: skipn (S i) th) s) (nth i th 0) (slope_at qth th s i).
Proof.
  intros qth th s i L Hi. unfold value, slope_at, expectation. pose proof (@coordinate_velocity N th i L Hi) as V. pose proof (@coordinate_same' N th i L Hi) as CS.
  apply (@deriv_total nat (fun a u => prob (firstn i th ++ u :: skipn (S i) th) s a * tq qth s a) (fun a _ => prob th s a * (score th s a i * tq qth s a))). intros a Ha. apply in_seq in Ha.
  apply (@derivable_pt_lim_same (fun u => tq qth s a * prob (firstn i th ++ u :: skipn (S i) th) s a)); [intros; lra|]. replace (prob th s a * (score th s a i * tq qth s a)) with (tq qth s a * (prob th s a * score th s a i)) by lra.
  apply (@derivable_pt_lim_scal (fun u => prob (firstn i th ++ u :: skipn (S i) th) s a)). pose proof (@prob_deriv nA N (netT tau net) score SM _ _ _ s a V ltac:(lia)) as D. unfold dlog in D. rewrite (@pick N (fun j => score (firstn i th ++ nth i th 0 :: skipn (S i) th) s a j) i Hi) in D. rewrite CS in D. exact D.
Qed.
Lemma loss_deriv : forall qth b rows th i, length qth = (nS * nA)%nat -> has_states nS b rows -> length th = N -> (i < N)%nat ->
  derivable_pt_lim (fun t => loss_value (loss qth b (firstn i th ++ t :: skipn (S i) th))) (nth i th 0) (- mean (map (fun r => weight (snd r) * slope_at qth th (fst r) i) rows)).
Proof.
  intros qth b rows th i Lq HR L Hi. apply (@derivable_pt_lim_same (fun u => - (/ INR (length rows) * total (map (fun r => weight (snd r) * value qth (firstn i th ++ u :: skipn (S i) th) (fst r)) rows)))).
  - intros u. rewrite (@loss_rows qth b rows) by (auto; now apply coordinate_length). cbn [loss_value]. unfold mean. rewrite map_length. unfold Rdiv. lra.
  - replace (- mean (map (fun r => weight (snd r) * slope_at qth th (fst r) i) rows)) with (- (/ INR (length rows) * total (map (fun r => weight (snd r) * slope_at qth th (fst r) i) rows))) by (unfold mean; rewrite map_length; unfold Rdiv; lra).
    apply (@derivable_pt_lim_opp (fun u => / INR (length rows) * total (map (fun r => weight (snd r) * value qth (firstn i th ++ u :: skipn (S i) th) (fst r)) rows))).
    apply (@derivable_pt_lim_scal (fun u => total (map (fun r => weight (snd r) * value qth (firstn i th ++ u :: skipn (S i) th) (fst r)) rows))).
    apply (@deriv_total _ (fun r u => weight (snd r) * value qth (firstn i th ++ u :: skipn (S i) th) (fst r)) (fun r _ => weight (snd r) * slope_at qth th (fst r) i)). intros r _.
    apply (@derivable_pt_lim_scal (fun u => value qth (firstn i th ++ u :: skipn (S i) th) (fst r))). now apply value_deriv.
Qed.
Definition dpg_grads (th qth : list R) (b : fbatch nat) : list R := map (fun i => - mean (map (fun r => weight (snd r) * slope_at qth th (fst r) i) (combine (fb_S b) (fb_W b)))) (seq 0 N).
Lemma rows_combine : forall b rows, has_states nS b rows -> combine (fb_S b) (fb_W b) = rows.
Proof. intros b rows (_ & H1 & H2 & _). rewrite H1, H2. clear. induction rows as [|[s w] rows IH]; [reflexivity|]. cbn. now rewrite IH. Qed.
Lemma dpg_grads_ok : dpg_differentiates nS nA N tau net dpg_grads.
Proof.
  intros th qth b rows L Lq HR. unfold dpg_grads. rewrite (rows_combine HR). split; [now rewrite map_length, seq_length|]. intros i Hi. rewrite (@nth_map_any _ _ _ (seq 0 N) i 0 0%nat) by (rewrite seq_length; lia). rewrite seq_nth by lia. cbn [Nat.add]. apply loss_deriv; auto. lia.
Qed.
Variable grads : list R -> list R -> fbatch nat -> list R.
Hypothesis GR : dpg_differentiates nS nA N tau net grads.
Lemma dpg_step : forall lr l th qth b rows, l_opt l = sgd lr -> f_params (l_func l) = wrap th -> length th = N -> length qth = (nS * nA)%nat -> has_states nS b rows ->
  exists l', dpg_update nA tau net (table1 nS) grads (wrap qth) b l = (l', Ok tt) /\ l_opt l' = sgd lr /\ f_cls (l_func l') = f_cls (l_func l) /\ f_state (l_func l') = f_state (l_func l) /\
    f_params (l_func l') = wrap (map (fun i => nth i th 0 + lr * mean (map (fun r => weight (snd r) * slope_at qth th (fst r) i) rows)) (seq 0 N)).
Proof.
  intros lr l th qth b rows HO HP L Lq HR. destruct (@GR th qth b rows L Lq HR) as [LG DG].
  destruct (@update_ok unit (dpg_grads_and_metrics nA tau net (table1 nS) grads (wrap qth) b) l (wrap (map (@Some R) (grads th qth b))) (f_state (l_func l)) tt
    (wrap (map (fun o => match o with Some v => - lr * v | None => 0 end) (map (@Some R) (grads th qth b)))) (l_ostate l)) as (p & l' & E & EP & F); auto.
  - unfold dpg_grads_and_metrics. rewrite HP, !unwrap_wrap, (@loss_rows qth b rows th Lq HR L). reflexivity.
  - apply wrap_no_nan.
  - rewrite HO. reflexivity.
  - rewrite HP. unfold wrap. cbn. now rewrite !map_length, LG, L.
  - exists l'. split; [exact E|]. red in F. subst l'. cbn. split; auto. split; auto. split; auto. rewrite HP in EP. apply wrap_entrywise in EP; [|rewrite !map_length; lia]. rewrite EP. f_equal. rewrite L. apply map_ext_in. intros i Hi. apply in_seq in Hi. rewrite map_map. rewrite (@nth_map_any _ _ _ (grads th qth b) i 0 0) by lia.
    rewrite (uniqueness_limite _ _ _ _ (DG i ltac:(lia)) (@loss_deriv qth b rows th i Lq HR L ltac:(lia))). lra.
Qed.
End Grad.

(** * Tables of logits *)

Definition tjac (tau : R) (jac : list R -> nat -> nat -> nat -> R) (th : list R) (s a i : nat) : R := jac th s a i / tau.
Lemma tableT_smooth : forall nS nA tau, (1 <= nA)%nat -> 0 < tau -> smooth_policy nA (nS * nA) (netT tau (logit_table nS nA)) (softmax_score nA (netT tau (logit_table nS nA)) (tjac tau (table_jac nS nA))).
Proof.
  intros nS nA tau HA Ht. apply logits_smooth; auto; [intros; unfold netT; rewrite map_length; apply table_length|]. intros s a Ha. unfold tjac, table_jac. apply smooth_sum. intros th L. unfold netT. rewrite (@nth_map_any _ _ (fun z => z / tau) _ a 0 0) by (rewrite table_length; lia). rewrite table_logit by auto. destruct (Nat.ltb_spec s nS) as [Hs|Hs]; cbn [andb].
  - rewrite (@total_ext _ _ (fun i => / tau * ((if Nat.eqb i (s * nA + a) then 1 else 0) * nth i th 0))) by (intros; unfold Rdiv; lra). rewrite total_scal. rewrite sum_pick; [unfold Rdiv; lra|nia].
  - rewrite (@total_ext _ _ (fun _ => 0)) by (intros; unfold Rdiv; lra). rewrite total_const. unfold Rdiv. lra.
Qed.
Lemma tableT_b_smooth : forall nS nA tau, (1 <= nA)%nat -> 0 < tau -> smooth_policy nA (nA + nS * nA) (netT tau (logit_table_b nS nA)) (softmax_score nA (netT tau (logit_table_b nS nA)) (tjac tau (table_b_jac nS nA))).
Proof.
  intros nS nA tau HA Ht. apply logits_smooth; auto; [intros; unfold netT; rewrite map_length; now apply table_b_length|]. intros s a Ha. unfold tjac, table_b_jac. apply smooth_sum. intros th L. unfold netT. rewrite (@nth_map_any _ _ (fun z => z / tau) _ a 0 0) by (rewrite table_b_length; lia). rewrite table_b_logit by auto.
  rewrite (@total_ext _ _ (fun i => / tau * ((if Nat.eqb i a then 1 else 0) * nth i th 0) + / tau * ((if Nat.ltb s nS && Nat.eqb i (nA + (s * nA + a)) then 1 else 0) * nth i th 0))) by (intros; unfold Rdiv; lra). rewrite total_plus, !total_scal. rewrite sum_pick by lia. destruct (Nat.ltb_spec s nS) as [Hs|Hs]; cbn [andb].
  - rewrite sum_pick; [unfold Rdiv; lra|nia].
  - rewrite (@total_ext _ _ (fun _ => 0)) by (intros; lra). rewrite total_const. unfold Rdiv. lra.
Qed.
(** The slope of the value of state s in the logit of (s', a). *)
Lemma table_slope : forall nS nA tau qth th s s' a, (1 <= nA)%nat -> 0 < tau -> length th = (nS * nA)%nat -> (s < nS)%nat -> (s' < nS)%nat -> (a < nA)%nat ->
  slope_at nA tau (logit_table nS nA) (softmax_score nA (netT tau (logit_table nS nA)) (tjac tau (table_jac nS nA))) qth th s (s' * nA + a) =
  if Nat.eqb s s' then relaxed nA tau (logit_table nS nA th s) a * (tq nA qth s a - worth nA tau (logit_table nS nA th s) (tq nA qth s)) / tau else 0.
Proof.
  intros nS nA tau qth th s s' a HA Ht L Hs Hs' Ha. unfold slope_at. set (p := prob nA (netT tau (logit_table nS nA)) th s).
  assert (TJ : forall c, (c < nA)%nat -> tjac tau (table_jac nS nA) th s c (s' * nA + a) = / tau * (if Nat.eqb s s' && Nat.eqb c a then 1 else 0)).
  { intros c Hc. unfold tjac, table_jac. destruct (Nat.ltb_spec s nS); [|lia]. cbn [andb]. unfold Rdiv. rewrite Rmult_comm. f_equal. destruct (Nat.eqb_spec s s') as [<-|NE]; cbn [andb].
    - destruct (Nat.eqb_spec c a) as [->|NE]; [now rewrite Nat.eqb_refl|]. destruct (Nat.eqb_spec (s * nA + a) (s * nA + c)); [lia|reflexivity].
    - destruct (Nat.eqb_spec (s' * nA + a) (s * nA + c)) as [E|]; [|reflexivity]. destruct (@index_inj nA s' a s c Ha Hc E). congruence. }
  assert (PE : forall c, (c < nA)%nat -> p c = relaxed nA tau (logit_table nS nA th s) c). { intros c Hc. symmetry. apply relaxed_prob; auto. apply table_length. }
  assert (PT : total (map p (seq 0 nA)) = 1). { eapply prob_total; [apply (@tableT_smooth nS nA tau HA Ht)|exact L]. }
  assert (EJ : expectation nA p (fun c => tjac tau (table_jac nS nA) th s c (s' * nA + a)) = if Nat.eqb s s' then / tau * p a else 0).
  { unfold expectation. destruct (Nat.eqb_spec s s') as [E|NE].
    - rewrite (@total_ext _ _ (fun c => if Nat.eqb c a then / tau * p c else 0)); [now rewrite (@total_single nA a (fun c => / tau * p c))|]. intros c Hc. apply in_seq in Hc. rewrite TJ by lia. destruct (Nat.eqb_spec s s'); [|congruence]. cbn [andb]. destruct (Nat.eqb c a); lra.
    - rewrite (@total_ext _ _ (fun _ => 0)); [rewrite total_const; lra|]. intros c Hc. apply in_seq in Hc. rewrite TJ by lia. destruct (Nat.eqb_spec s s'); [congruence|]. cbn [andb]. lra. }
  unfold worth. rewrite (@expectation_ext nA (relaxed nA tau (logit_table nS nA th s)) p (tq nA qth s) (tq nA qth s)) by (auto; intros; symmetry; auto). rewrite <- PE by auto. set (V := expectation nA p (tq nA qth s)).
  unfold expectation. destruct (Nat.eqb_spec s s') as [E|NE].
  - rewrite (@total_ext _ _ (fun c => (if Nat.eqb c a then / tau * (p c * tq nA qth s c) else 0) - / tau * p a * (p c * tq nA qth s c))).
    + rewrite total_minus, total_scal, (@total_single nA a (fun c => / tau * (p c * tq nA qth s c))) by auto. fold (expectation nA p (tq nA qth s)). fold V. unfold Rdiv. lra.
    + intros c Hc. apply in_seq in Hc. unfold softmax_score. fold p. rewrite EJ, TJ by lia. destruct (Nat.eqb_spec s s'); [|congruence]. cbn [andb]. destruct (Nat.eqb c a); lra.
  - rewrite (@total_ext _ _ (fun _ => 0)); [rewrite total_const; lra|]. intros c Hc. apply in_seq in Hc. unfold softmax_score. fold p. rewrite EJ, TJ by lia. destruct (Nat.eqb_spec s s'); [congruence|]. cbn [andb]. lra.
Qed.
Lemma mean_scal_in : forall (A : Type) (f : A -> R) c l, mean (map (fun x => f x * c) l) = mean (map f l) * c.
Proof. intros A f c l. unfold mean. rewrite !map_length. rewrite (@total_ext _ _ (fun x => c * f x)) by (intros; lra). rewrite total_scal. unfold Rdiv. lra. Qed.
(** One update of a table. *)
Lemma table_step : forall nS nA tau grads lr l th qth b rows, (1 <= nA)%nat -> 0 < tau -> dpg_differentiates nS nA (nS * nA) tau (logit_table nS nA) grads -> l_opt l = sgd lr -> f_params (l_func l) = wrap th -> length th = (nS * nA)%nat -> length qth = (nS * nA)%nat -> has_states nS b rows ->
  exists l' th', dpg_update nA tau (logit_table nS nA) (table1 nS) grads (wrap qth) b l = (l', Ok tt) /\ l_opt l' = sgd lr /\ f_cls (l_func l') = f_cls (l_func l) /\ f_state (l_func l') = f_state (l_func l) /\
    f_params (l_func l') = wrap th' /\ length th' = (nS * nA)%nat /\
    forall s a, (s < nS)%nat -> (a < nA)%nat -> nth (s * nA + a) th' 0 = nth (s * nA + a) th 0 + lr * occurs s rows * (relaxed nA tau (logit_table nS nA th s) a * (tq nA qth s a - worth nA tau (logit_table nS nA th s) (tq nA qth s)) / tau).
Proof.
  intros nS nA tau grads lr l th qth b rows HA Ht GR HO HP L Lq HR.
  destruct (@dpg_step nS nA (nS * nA) tau (logit_table nS nA) _ Ht (@tableT_smooth nS nA tau HA Ht) ltac:(intros; apply table_length) grads GR lr l th qth b rows HO HP L Lq HR) as (l' & E & O & C & F & P).
  eexists l', _. split; [exact E|]. split; auto. split; auto. split; auto. split; [exact P|]. split; [now rewrite map_length, seq_length|]. intros s a Hs Ha. pose proof (@index_lt nS nA s a Hs Ha) as Hi.
  rewrite (@nth_map_any _ _ _ (seq 0 (nS * nA)) (s * nA + a) 0 0%nat) by (rewrite seq_length; lia). rewrite seq_nth by lia. cbn [Nat.add]. f_equal. rewrite Rmult_assoc. f_equal. unfold occurs. rewrite <- mean_scal_in. unfold mean. rewrite !map_length. f_equal. apply total_ext. intros r Hr. destruct HR as (_ & _ & _ & H3).
  rewrite table_slope by auto. destruct (Nat.eqb_spec (fst r) s) as [->|NE]; lra.
Qed.
