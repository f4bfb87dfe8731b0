(** PPO-clip updates of a policy network. *)
From Coq Require Import List Lia Bool Arith Reals Lra.
From Verif Require Import PyCommon CommonProofs UtilsModel UtilsSpec UtilsProofs2 UtilsProofs3 WrappersProofs DistModel DistSpec DistProofs LossModel LossSpec LossProofs QModel QProofs TDModel TDSpec TDProofs TDProofs2 TDProofs3 CoreModel CoreSpec CoreProofs CoreProofs2 TracerModel WorkerModel PolicyModel PolicySpec PolicyProofs PolicyProofs4 PolicyProofs5 LearnModel LearnProofs2 LearnProofs3 PgModel PgSpec PgProofs PgProofs2 PgProofs3 PgProofs4 AcModel AcSpec AcProofs3 LearnProofs6 PpoModel PpoSpec.
Import ListNotations.
Set Implicit Arguments.
Local Open Scope R_scope.

Definition row0 : prow := mkRow 0 0 0 0 0.
Lemma nth_rows : forall (f : prow -> R) rows k, (k < length rows)%nat -> nth k (map f rows) 0 = f (nth k rows row0).
Proof. intros f rows k Hk. now rewrite (@nth_map_any _ _ f rows k 0 row0). Qed.
Lemma total_rows : forall (f : prow -> R) rows, total (map f rows) = total (map (fun k => f (nth k rows row0)) (seq 0 (length rows))).
Proof.
  intros f rows. rewrite (@list_seq (map f rows) (length rows)) at 1 by apply map_length. f_equal. apply map_seq_ext. intros k Hk. now apply nth_rows.
Qed.
Lemma total_opp : forall (A : Type) (f : A -> R) l, total (map (fun x => - f x) l) = - total (map f l).
Proof. intros A f l. rewrite (@total_ext _ _ (fun x => -1 * f x)) by (intros; lra). rewrite total_scal. lra. Qed.

Section Update.
Variables nA N : nat.
Variable net : list R -> nat -> list R.
Variable score : list R -> nat -> nat -> nat -> R.
Hypothesis SM : smooth_policy nA N net score.
Variable eps : R.
Hypothesis HE : 0 <= eps.
Notation prob := (prob nA net).
Notation ratio := (row_ratio nA net).
Notation loss := (ppo_loss nA net eps).

Definition logs (rows : list prow) (th : list R) : list R := map (fun x => ln (prob th (w_s x) (w_a x))) rows.
Lemma objective_rows : forall b Adv rows th, has_rows nA b Adv rows -> length th = N ->
  ppo_batch_objective nA net eps b Adv th = ppo_objective eps (map w_w rows) (map w_adv rows) (map w_logp rows) (logs rows th).
Proof.
  intros b Adv rows th (NE & HA & H1 & H2 & H3 & H4 & H5) L. destruct SM as (N1 & N2 & _). unfold ppo_batch_objective. rewrite H1, H2, H3, H4, H5. rewrite vmap2_ok by now rewrite !map_length. cbn [bind].
  rewrite (@collect_ok _ _ _ (fun sa => ln (prob th (fst sa) (decode (snd sa))))).
  - cbn [bind]. f_equal. rewrite map_map. unfold logs. clear - HA. induction rows as [|x rows IH]; [reflexivity|]. cbn [map combine fst snd]. f_equal; [now rewrite decode_one_hot by (apply HA; now left)|]. apply IH. intros y Hy. apply HA. now right.
  - intros sa HI. apply in_map_iff in HI. destruct HI as ([s a] & <- & HI). cbn [fst snd]. assert (E : exists x, In x rows /\ s = w_s x /\ a = one_hot nA (w_a x)).
    { clear - HI. induction rows as [|x rows IH]; [contradiction|]. cbn [map combine] in HI. destruct HI as [HI|HI]; [injection HI as <- <-; exists x; cbn; auto|]. destruct (IH HI) as (y & Y1 & Y2). exists y. split; [now right|auto]. }
    destruct E as (x & Ix & -> & ->). rewrite logp_boltzmann by auto. rewrite decode_one_hot by auto. reflexivity.
Qed.
Lemma ratio_pratio : forall rows th k, length th = N -> (forall x, In x rows -> (w_a x < nA)%nat) -> (k < length rows)%nat -> pratio (logs rows th) (map w_logp rows) k = ratio th (nth k rows row0).
Proof.
  intros rows th k L HA Hk. unfold pratio, logs, row_ratio. rewrite !nth_rows by auto. rewrite exp_ln; auto. eapply prob_pos; eauto. apply HA. now apply nth_In.
Qed.
Lemma loss_rows : forall b Adv rows th, has_rows nA b Adv rows -> length th = N ->
  loss b Adv th = Ok (Some (- mean (map (fun x => weight (w_w x) * ppo_term (w_adv x) eps (ratio th x)) rows))).
Proof.
  intros b Adv rows th HR L. pose proof HR as (NE & HA & _). unfold ppo_loss. rewrite (@objective_rows b Adv rows th HR L). unfold policy_loss.
  rewrite (@ppo_value eps (map w_w rows) (map w_adv rows) (map w_logp rows) (logs rows th) (length rows)); try apply map_length; auto.
  - cbn [bind option_map]. do 3 f_equal. unfold weighted_mean, mean. rewrite map_length. f_equal. rewrite total_rows. f_equal. apply map_seq_ext. intros k Hk. rewrite ratio_pratio by auto. unfold imp. rewrite !nth_rows by auto. reflexivity.
  - destruct rows; [congruence|]. cbn. lia.
Qed.
(** The gradient. *)
Lemma coordinate_length : forall (th : list R) i u, length th = N -> (i < N)%nat -> length (firstn i th ++ u :: skipn (S i) th) = N.
Proof. intros th i u L Hi. apply (@coordinate_velocity N th i L Hi). Qed.
Lemma coordinate_same' : forall (th : list R) i, length th = N -> (i < N)%nat -> firstn i th ++ nth i th 0 :: skipn (S i) th = th.
Proof. intros. eapply coordinate_same; eauto. Qed.
Lemma loss_deriv : forall b Adv rows th slope i, has_rows nA b Adv rows -> length th = N -> (forall x, In x rows -> ppo_slope (w_adv x) eps (ratio th x) (slope x)) -> (i < N)%nat ->
  derivable_pt_lim (fun t => loss_value (loss b Adv (firstn i th ++ t :: skipn (S i) th))) (nth i th 0) (- mean (map (fun x => weight (w_w x) * (slope x * score th (w_s x) (w_a x) i)) rows)).
Proof.
  intros b Adv rows th slope i HR L HS Hi. pose proof HR as (NE & HA & _). set (lp := fun u => logs rows (firstn i th ++ u :: skipn (S i) th)).
  assert (L0 : lp (nth i th 0) = logs rows th) by (unfold lp; now rewrite coordinate_same').
  pose proof (@ppo_deriv eps (map w_w rows) (map w_adv rows) (map w_logp rows) lp (length rows) (nth i th 0) (fun k => score th (w_s (nth k rows row0)) (w_a (nth k rows row0)) i) (fun k => slope (nth k rows row0)) HE) as D.
  apply (@derivable_pt_lim_same (fun u => - loss_value (ppo_objective eps (map w_w rows) (map w_adv rows) (map w_logp rows) (lp u)))).
  - intros u. unfold ppo_loss. rewrite (@objective_rows b Adv rows) by (auto; now apply coordinate_length). fold (lp u). destruct (ppo_objective _ _ _ _ (lp u)) as [[v|]|]; cbn; lra.
  - match goal with |- derivable_pt_lim _ _ (- ?m) => replace m with (weighted_mean (fun k => slope (nth k rows row0) * score th (w_s (nth k rows row0)) (w_a (nth k rows row0)) i) (imp (map w_w rows)) (length rows)) end.
    + apply (@derivable_pt_lim_opp (fun u => loss_value (ppo_objective eps (map w_w rows) (map w_adv rows) (map w_logp rows) (lp u)))). apply D; try apply map_length.
      * destruct rows; [congruence|]. cbn. lia.
      * split; [intros u; apply map_length|]. intros k Hk. apply (@derivable_pt_lim_same (fun u => ln (prob (firstn i th ++ u :: skipn (S i) th) (w_s (nth k rows row0)) (w_a (nth k rows row0))))); [intros u; unfold lp, logs; now rewrite nth_rows|].
        destruct SM as (_ & _ & H3). apply (@coordinate_deriv N (fun th => ln (prob th (w_s (nth k rows row0)) (w_a (nth k rows row0)))) (fun th i => score th (w_s (nth k rows row0)) (w_a (nth k rows row0)) i)); auto. apply H3. apply HA. now apply nth_In.
      * intros k Hk. rewrite L0, ratio_pratio by auto. rewrite nth_rows by auto. apply HS. now apply nth_In.
    + unfold weighted_mean, mean. rewrite map_length. f_equal. rewrite total_rows. f_equal. apply map_seq_ext. intros k Hk. unfold imp. now rewrite nth_rows by auto.
Qed.

(** jax.grad exists. *)
Definition pslope (adv r : R) : R := if Rlt_dec 0 adv then (if Rlt_dec r (1 + eps) then adv * r else 0) else if Rlt_dec adv 0 then (if Rlt_dec (1 - eps) r then adv * r else 0) else 0.
Lemma pslope_slope : forall adv r, (exists k, ppo_slope adv eps r k) -> ppo_slope adv eps r (pslope adv r).
Proof.
  intros adv r (k & [[I _]|[I _]]); unfold pslope, ppo_slope, incentive, no_incentive in *; destruct (Rlt_dec 0 adv), (Rlt_dec adv 0), (Rlt_dec r (1 + eps)), (Rlt_dec (1 - eps) r); try lra; intuition lra.
Qed.
Lemma slope_unique : forall adv r k k', ppo_slope adv eps r k -> ppo_slope adv eps r k' -> k = k'.
Proof. intros adv r k k' [[I ->]|[I ->]] [[J ->]|[J ->]]; auto; unfold incentive, no_incentive in *; intuition (subst; lra). Qed.
Definition rows_of (b : pbatch) (Adv : list R) : list prow :=
  map (fun k => mkRow (nth k (fb_S (pb_b b)) 0%nat) (decode (nth k (fb_A (pb_b b)) [])) (nth k (fb_W (pb_b b)) 0) (nth k (pb_logP b) 0) (nth k Adv 0)) (seq 0 (length Adv)).
Lemma rows_of_rows : forall b Adv rows, has_rows nA b Adv rows -> rows_of b Adv = rows.
Proof.
  intros b Adv rows (NE & HA & H1 & H2 & H3 & H4 & H5). unfold rows_of. rewrite H1, H2, H3, H4, H5, map_length. clear - HA. transitivity (map (fun k => nth k rows row0) (seq 0 (length rows))).
  - apply map_ext_in. intros k Hk. apply in_seq in Hk. rewrite !nth_rows by lia. rewrite (@nth_map_any _ _ w_s rows k 0%nat row0) by lia. rewrite (@nth_map_any _ _ (fun x => one_hot nA (w_a x)) rows k [] row0) by lia. rewrite decode_one_hot by (apply HA, nth_In; lia). now destruct (nth k rows row0).
  - clear. induction rows as [|x rows IH]; [reflexivity|]. cbn [length seq map nth]. f_equal. rewrite <- seq_shift, map_map. exact IH.
Qed.
Lemma ppo_grads_exist : exists grads, ppo_differentiates nA N net eps grads.
Proof.
  exists (fun th b Adv => map (fun i => - mean (map (fun x => weight (w_w x) * (pslope (w_adv x) (ratio th x) * score th (w_s x) (w_a x) i)) (rows_of b Adv))) (seq 0 N)).
  intros th b Adv rows L HR HS. rewrite (rows_of_rows HR). split; [now rewrite map_length, seq_length|]. intros i Hi. rewrite L in Hi. rewrite (@nth_map_any _ _ _ (seq 0 N) i 0 0%nat) by (rewrite seq_length; lia). rewrite seq_nth by lia. cbn [Nat.add].
  apply (@loss_deriv b Adv rows th (fun x => pslope (w_adv x) (ratio th x)) i HR L); auto. intros x Hx. now apply pslope_slope, HS.
Qed.

(** One update. *)
Variable grads : list R -> pbatch -> list R -> list R.
Hypothesis GR : ppo_differentiates nA N net eps grads.
Lemma ppo_step : forall lr l th b Adv rows slope, l_opt l = sgd lr -> f_params (l_func l) = wrap th -> length th = N -> has_rows nA b Adv rows -> (forall x, In x rows -> ppo_slope (w_adv x) eps (ratio th x) (slope x)) ->
  exists l', ppo_update nA net grads eps b Adv l = (l', Ok tt) /\ l_opt l' = sgd lr /\ f_cls (l_func l') = f_cls (l_func l) /\ f_state (l_func l') = f_state (l_func l) /\
    f_params (l_func l') = wrap (map (fun i => nth i th 0 + lr * mean (map (fun x => weight (w_w x) * (slope x * score th (w_s x) (w_a x) i)) rows)) (seq 0 N)).
Proof.
  intros lr l th b Adv rows slope HO HP L HR HS. assert (G := @GR th b Adv rows L HR ltac:(intros x Hx; exists (slope x); auto)). destruct G as [LG DG].
  destruct (@update_ok unit (ppo_grads_and_metrics nA net grads eps b Adv) l (wrap (map (@Some R) (grads th b Adv))) (f_state (l_func l)) tt
    (wrap (map (fun o => match o with Some v => - lr * v | None => 0 end) (map (@Some R) (grads th b Adv)))) (l_ostate l)) as (p & l' & E & EP & F); auto.
  - unfold ppo_grads_and_metrics. rewrite HP, unwrap_wrap, (@loss_rows b Adv rows th HR L). reflexivity.
  - apply wrap_no_nan.
  - rewrite HO. reflexivity.
  - rewrite HP. unfold wrap. cbn. now rewrite !map_length, LG, L.
  - exists l'. split; [exact E|]. red in F. subst l'. cbn. split; auto. split; auto. split; auto. rewrite HP in EP. apply wrap_entrywise in EP; [|rewrite !map_length; lia]. rewrite EP. f_equal. rewrite L. apply map_ext_in. intros i Hi. apply in_seq in Hi. rewrite map_map. rewrite (@nth_map_any _ _ _ (grads th b Adv) i 0 0) by lia.
    rewrite (uniqueness_limite _ _ _ _ (DG i ltac:(lia)) (@loss_deriv b Adv rows th slope i HR L HS ltac:(lia))). lra.
Qed.
Lemma same_params : forall th f, length th = N -> (forall i, f i = 0) -> map (fun i => nth i th 0 + f i) (seq 0 N) = th.
Proof. intros th f L H. transitivity (map (fun i => nth i th 0) (seq 0 N)); [apply map_ext; intros; rewrite H; lra|symmetry; now apply list_seq]. Qed.
Lemma mean_zero : forall (A : Type) (f : A -> R) l, (forall x, In x l -> f x = 0) -> mean (map f l) = 0.
Proof. intros A f l H. unfold mean. rewrite (@total_ext _ _ (fun x => 0 * 0)) by (intros; rewrite H by auto; lra). rewrite total_scal. unfold Rdiv. lra. Qed.
Lemma ppo_stays : forall lr bs l th, l_opt l = sgd lr -> f_params (l_func l) = wrap th -> length th = N ->
  (forall b Adv, In (b, Adv) bs -> exists rows, has_rows nA b Adv rows /\ forall x, In x rows -> no_incentive (w_adv x) eps (ratio th x)) ->
  exists l', ppo_updates nA net grads eps bs l = (l', Ok tt) /\ l_opt l' = sgd lr /\ f_params (l_func l') = wrap th.
Proof.
  intros lr. induction bs as [|[b Adv] bs IH]; intros l th HO HP L H.
  - exists l. auto.
  - destruct (H b Adv ltac:(now left)) as (rows & HR & HN). destruct (@ppo_step lr l th b Adv rows (fun _ => 0) HO HP L HR) as (l1 & E1 & O1 & _ & _ & P1). { intros x Hx. right. auto. }
    cbn [ppo_updates]. rewrite E1. apply (IH l1 th); auto.
    + rewrite P1. f_equal. apply (@same_params th (fun i => lr * mean (map (fun x => weight (w_w x) * (0 * score th (w_s x) (w_a x) i)) rows)) L). intros i. rewrite mean_zero by (intros; lra). lra.
    + intros b' Adv' HI. apply H. now right.
Qed.
End Update.
