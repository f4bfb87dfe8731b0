(** Property C120: PPO-clip updates, their gradients, and the improvement they guarantee. *)
From Coq Require Import List Lia Bool Arith Reals Lra.
From Verif Require Import PyCommon CommonProofs UtilsModel UtilsSpec UtilsProofs2 UtilsProofs3 WrappersProofs DistModel DistSpec DistProofs LossModel LossSpec LossProofs QModel TDModel TDSpec TDProofs TDProofs3 CoreModel CoreSpec CoreProofs CoreProofs2 TracerModel WorkerModel PolicyModel PolicySpec PolicyProofs PolicyProofs2 PolicyProofs3 PolicyProofs4 PolicyProofs5 LearnModel LearnProofs2 LearnProofs3 PgModel PgSpec PgProofs PgProofs2 PgProofs3 PgProofs4 AcModel AcSpec AcProofs AcProofs2 AcProofs3 PgProps AcProps PolicyProps PpoModel PpoSpec PpoProofs PpoProofs2 CompProofs2.
Import ListNotations.
Local Open Scope R_scope.

(** ** C120: updates *)
(** C120: one update from a batch of any size.  Every row moves the parameters along the gradient of the log-probability of its action, times
    advantage and probability ratio while the ratio is on the side of the clipping bound to which the advantage points; rows beyond that bound do
    not count at all, but are still counted in the denominator of the mean.  Importance weights are clipped to [0.1, 10]. *)
Theorem C120_update : forall nA N net score eps grads lr l th b Adv rows slope,
  smooth_policy nA N net score -> 0 <= eps -> ppo_differentiates nA N net eps grads -> l_opt l = sgd lr -> f_params (l_func l) = wrap th -> length th = N ->
  has_rows nA b Adv rows -> (forall x, In x rows -> ppo_slope (w_adv x) eps (row_ratio nA net th x) (slope x)) ->
  exists l', ppo_update nA net grads eps b Adv l = (l', Ok tt) /\ l_opt l' = sgd lr /\ f_cls (l_func l') = f_cls (l_func l) /\ f_state (l_func l') = f_state (l_func l) /\
    f_params (l_func l') = wrap (map (fun i => nth i th 0 + lr * mean (map (fun x => weight (w_w x) * (slope x * score th (w_s x) (w_a x) i)) rows)) (seq 0 N)).
Proof. intros. eapply ppo_step; eauto. Qed.
Print Assumptions C120_update.
(** C120: gradients exist for all differentiable policies. *)
Theorem C120_grads : forall nA N net score eps, smooth_policy nA N net score -> 0 <= eps -> exists grads, ppo_differentiates nA N net eps grads.
Proof. intros. eapply ppo_grads_exist; eauto. Qed.
Print Assumptions C120_grads.
(** Two rows: one within the bounds, one beyond them. *)
Definition ex_rows : list prow := [mkRow 0 0 1 (ln (1 / 2)) 2; mkRow 0 1 20 (ln (1 / 4)) 1].
Definition ex_t : tbatch nat := mk_tb [] [] [] [].
Definition ex_pb : pbatch := mk_pb (mk_fb [0%nat; 0%nat] [one_hot 2 0; one_hot 2 1] [1; 20] ex_t) [ln (1 / 2); ln (1 / 4)].
Example C120_update_ex : smooth_policy 2 1 ex_shared (softmax_score 2 ex_shared ex_jac) /\ has_rows 2 ex_pb [2; 1] ex_rows /\ ppo_slope 2 (1 / 5) (row_ratio 2 ex_shared [0] (mkRow 0 0 1 (ln (1 / 2)) 2)) 2 /\
  ppo_slope 1 (1 / 5) (row_ratio 2 ex_shared [0] (mkRow 0 1 20 (ln (1 / 4)) 1)) 0 /\ weight 20 = 10.
Proof.
  split; [exact ex_shared_smooth|]. split. { split; [discriminate|]. split; [intros x [<-|[<-|[]]]; cbn; lia|]. repeat split. }
  unfold row_ratio, weight. cbn [w_s w_a w_logp]. rewrite !ex_half, !exp_ln by (lia || lra). split; [left; split; [left; lra|lra]|]. split; [right; split; [right; left; lra|reflexivity]|]. rewrite Rmax_left, Rmin_right; lra.
Qed.

(** C120: the same for a batch made of recorded transitions: the ratios are those to the recorded propensities. *)
Theorem C120_transitions : forall nA N net score eps grads lr l th xs Adv slope,
  smooth_policy nA N net score -> 0 <= eps -> ppo_differentiates nA N net eps grads -> l_opt l = sgd lr -> f_params (l_func l) = wrap th -> length th = N ->
  xs <> [] -> length Adv = length xs -> (forall x, In x xs -> (x_a x < nA)%nat) ->
  (forall x adv, In (x, adv) (combine xs Adv) -> ppo_slope adv eps (prob nA net th (x_s x) (x_a x) / exp (x_logp x)) (slope x adv)) ->
  exists l', ppo_update nA net grads eps (pbatch_of nA xs) Adv l = (l', Ok tt) /\
    f_params (l_func l') = wrap (map (fun i => nth i th 0 + lr * mean (map (fun z => weight (x_w (fst z)) * (slope (fst z) (snd z) * score th (x_s (fst z)) (x_a (fst z)) i)) (combine xs Adv))) (seq 0 N)).
Proof.
  intros nA N net score eps grads lr l th xs Adv slope SM HE GR HO HP L NE LA HA HS. set (row := fun z : single nat nat * R => mkRow (x_s (fst z)) (x_a (fst z)) (x_w (fst z)) (x_logp (fst z)) (snd z)).
  set (sl := fun y : prow => let r := row_ratio nA net th y in if Rlt_dec 0 (w_adv y) then if Rlt_dec r (1 + eps) then w_adv y * r else 0 else if Rlt_dec (w_adv y) 0 then if Rlt_dec (1 - eps) r then w_adv y * r else 0 else 0).
  assert (U : forall z, In z (combine xs Adv) -> sl (row z) = slope (fst z) (snd z)).
  { intros [x adv] Hz. specialize (HS x adv Hz). unfold sl, row, row_ratio. cbn [fst snd w_s w_a w_logp w_adv]. unfold ppo_slope, incentive, no_incentive in HS. set (r := prob nA net th (x_s x) (x_a x) / exp (x_logp x)) in *. clearbody r. repeat destruct Rlt_dec; destruct HS as [[HS E]|[HS E]]; rewrite E; try lra; exfalso; clear - HS n n0 r0 || clear - HS; lra. }
  assert (M1 : forall (B : Type) (g : single nat nat -> B), map g xs = map (fun z => g (fst z)) (combine xs Adv)). { intros B g. clear - LA. revert Adv LA. induction xs as [|x xs IH]; intros [|d Adv] E; try discriminate; auto. cbn. f_equal. apply IH. now injection E. }
  assert (M2 : Adv = map snd (combine xs Adv)). { clear - LA. revert Adv LA. induction xs as [|x xs IH]; intros [|d Adv] E; try discriminate; auto. cbn. f_equal. apply IH. now injection E. }
  destruct (@C120_update nA N net score eps grads lr l th (pbatch_of nA xs) Adv (map row (combine xs Adv)) sl SM HE GR HO HP L) as (l' & E1 & _ & _ & _ & E2).
  - split; [destruct xs as [|x0 xs]; [congruence|]; destruct Adv as [|d Adv]; [discriminate LA|discriminate]|]. split. { intros y Hy. apply in_map_iff in Hy as ([x adv] & <- & Hz). apply HA. eapply in_combine_l; eauto. }
    rewrite !map_map. unfold pbatch_of, batch_of. cbn [pb_b pb_logP fb_S fb_A fb_W row w_s w_a w_w w_logp w_adv]. split; [apply M1|]. split; [apply (M1 _ (fun x => one_hot nA (x_a x)))|]. split; [apply M1|]. split; [apply M1|]. exact M2.
  - intros y Hy. apply in_map_iff in Hy as ([x adv] & <- & Hz). rewrite (U _ Hz). exact (HS x adv Hz).
  - exists l'. split; [exact E1|]. rewrite E2. f_equal. apply map_ext. intros i. do 3 f_equal. rewrite map_map. apply map_ext_in. intros z Hz. cbn [row w_w w_s w_a]. now rewrite (U z Hz).
Qed.
Print Assumptions C120_transitions.
(** A transition recorded with the propensity 1/2, one with 1/4: the second is beyond the bound. *)
Definition ex_rec : list (single nat nat) := [mkSingle 0%nat 0%nat (ln (1 / 2)) 1 0 0%nat 0%nat 0 1 None; mkSingle 0%nat 1%nat (ln (1 / 4)) 1 0 0%nat 0%nat 0 20 None].
Example C120_transitions_ex : (forall x, In x ex_rec -> (x_a x < 2)%nat) /\ forall x adv, In (x, adv) (combine ex_rec [2; 1]) -> ppo_slope adv (1 / 5) (prob 2 ex_shared [0] (x_s x) (x_a x) / exp (x_logp x)) (if Nat.eqb (x_a x) 0 then 2 else 0).
Proof.
  split; [intros x [<-|[<-|[]]]; cbn; lia|]. intros x adv [X|[X|[]]]; injection X as <- <-; cbn [x_s x_a x_logp Nat.eqb]; rewrite !ex_half, !exp_ln by (lia || lra); [left; split; [left; lra|lra]|right; split; [right; left; lra|reflexivity]].
Qed.

(** C120: over any number of updates, batches of which every row is beyond the bound leave the parameters alone. *)
Theorem C120_stops : forall nA N net score eps grads lr bs l th,
  smooth_policy nA N net score -> 0 <= eps -> ppo_differentiates nA N net eps grads -> l_opt l = sgd lr -> f_params (l_func l) = wrap th -> length th = N ->
  (forall b Adv, In (b, Adv) bs -> exists rows, has_rows nA b Adv rows /\ forall x, In x rows -> no_incentive (w_adv x) eps (row_ratio nA net th x)) ->
  exists l', ppo_updates nA net grads eps bs l = (l', Ok tt) /\ l_opt l' = sgd lr /\ f_params (l_func l') = wrap th.
Proof. intros. eapply ppo_stays; eauto. Qed.
Print Assumptions C120_stops.
Example C120_stops_ex : has_rows 2 (one_pbatch 2 0 1 (ln (1 / 4)) ex_t) [1] [mkRow 0 1 1 (ln (1 / 4)) 1] /\ no_incentive 1 (1 / 5) (row_ratio 2 ex_shared [0] (mkRow 0 1 1 (ln (1 / 4)) 1)).
Proof. split; [apply one_rows; lia|]. unfold row_ratio. cbn [w_s w_a w_logp]. rewrite ex_half, exp_ln by (lia || lra). right. left. lra. Qed.

(** C120: if the recorded log-propensities are those of the present policy, the update is that of the policy gradient, whatever epsilon > 0.  For one
    transition the new parameters are those of VanillaPG. *)
Theorem C120_on_policy : forall nA N net score eps grads lr l th b Adv rows,
  smooth_policy nA N net score -> 0 < eps -> ppo_differentiates nA N net eps grads -> l_opt l = sgd lr -> f_params (l_func l) = wrap th -> length th = N ->
  has_rows nA b Adv rows -> (forall x, In x rows -> exp (w_logp x) = prob nA net th (w_s x) (w_a x)) ->
  exists l', ppo_update nA net grads eps b Adv l = (l', Ok tt) /\ f_params (l_func l') = wrap (map (fun i => nth i th 0 + lr * mean (map (fun x => weight (w_w x) * (w_adv x * score th (w_s x) (w_a x) i)) rows)) (seq 0 N)).
Proof.
  intros nA N net score eps grads lr l th b Adv rows SM HE GR HO HP L HR HL. assert (HA : forall x, In x rows -> (w_a x < nA)%nat) by apply HR.
  destruct (@C120_update nA N net score eps grads lr l th b Adv rows w_adv SM ltac:(lra) GR HO HP L HR) as (l' & E1 & _ & _ & _ & E2); [|exists l'; auto]. intros x Hx.
  replace (row_ratio nA net th x) with 1. 2:{ unfold row_ratio. rewrite HL by auto. assert (0 < prob nA net th (w_s x) (w_a x)) by (eapply prob_pos; eauto). field. lra. }
  destruct (Rtotal_order (w_adv x) 0) as [X|[X|X]]; [left|right|left]; unfold incentive, no_incentive; split; lra.
Qed.
Print Assumptions C120_on_policy.
Theorem C120_vanilla : forall nA N net score eps grads pgrads lr l th s a t adv,
  smooth_policy nA N net score -> 0 < eps -> ppo_differentiates nA N net eps grads -> pg_differentiates nA N net pgrads -> l_opt l = sgd lr -> f_params (l_func l) = wrap th -> length th = N -> (a < nA)%nat ->
  exists l1 l2, ppo_update nA net grads eps (one_pbatch nA s a (ln (prob nA net th s a)) t) [adv] l = (l1, Ok tt) /\ pg_update nA net pgrads (mk_fb [s] [one_hot nA a] [1] t) [adv] l = (l2, Ok tt) /\
    f_params (l_func l1) = f_params (l_func l2).
Proof.
  intros nA N net score eps grads pgrads lr l th s a t adv SM HE GR PG HO HP L Ha.
  destruct (@C120_on_policy nA N net score eps grads lr l th _ _ _ SM HE GR HO HP L (@one_rows nA s a (ln (prob nA net th s a)) t adv Ha)) as (l1 & E1 & P1). { intros x [<-|[]]. cbn. apply exp_ln. eapply prob_pos; eauto. }
  destruct (@pg_step nA N net score SM pgrads PG lr l th (mk_fb [s] [one_hot nA a] [1] t) s a adv HO HP L eq_refl eq_refl eq_refl Ha) as (l2 & E2 & _ & P2). exists l1, l2. split; [exact E1|]. split; [exact E2|]. rewrite P1, P2. f_equal. apply map_ext. intros i. cbn [map w_w w_adv w_s w_a]. rewrite mean_1, weight_1. lra.
Qed.
Print Assumptions C120_vanilla.
Example C120_on_policy_ex : has_rows 2 (one_pbatch 2 0 1 (ln (1 / 2)) ex_t) [3] [mkRow 0 1 1 (ln (1 / 2)) 3] /\ exp (ln (1 / 2)) = prob 2 ex_shared [0] 0 1 /\
  exists grads pgrads, ppo_differentiates 2 1 ex_shared (1 / 5) grads /\ pg_differentiates 2 1 ex_shared pgrads.
Proof.
  split; [apply one_rows; lia|]. split; [rewrite ex_half, exp_ln by (lia || lra); reflexivity|]. destruct (C120_grads _ _ _ _ (1 / 5) ex_shared_smooth ltac:(lra)) as [g G]. destruct (grads_exist ex_shared_smooth) as [h H]. exists g, h. auto.
Qed.

(** C120: importance sampling is exact.  While all ratios are within the bounds, minus the mean of the gradients over the actions of the old policy
    is the gradient of the mean advantage over the actions of the new one. *)
Theorem C120_unbiased : forall nA N net score eps grads th old s adv t, smooth_policy nA N net score -> 0 < eps -> ppo_differentiates nA N net eps grads -> length th = N -> length old = N ->
  (forall a, (a < nA)%nat -> 1 - eps < prob nA net th s a / prob nA net old s a < 1 + eps) ->
  gradient (fun p => expectation nA (prob nA net p s) adv) th (map (fun i => - expectation nA (prob nA net old s) (fun a => nth i (grads th (one_pbatch nA s a (ln (prob nA net old s a)) t) [adv a]) 0)) (seq 0 N)).
Proof. intros. eapply unbiased; eauto. Qed.
Print Assumptions C120_unbiased.
Lemma ex_prob0 : forall x s, prob 2 ex_shared [x] s 0 = exp x / (exp x + 1).
Proof. intros x s. unfold prob, ex_shared, boltzmann. cbn [nth seq map]. rewrite !total_cons, exp_0. change (total []) with 0. rewrite Rplus_0_r. reflexivity. Qed.
Lemma ex_prob1 : forall x s, prob 2 ex_shared [x] s 1 = 1 / (exp x + 1).
Proof. intros x s. unfold prob, ex_shared, boltzmann. cbn [nth seq map]. rewrite !total_cons, exp_0. change (total []) with 0. rewrite Rplus_0_r. reflexivity. Qed.
Example C120_unbiased_ex : (forall a, (a < 2)%nat -> 1 - 3 / 10 < prob 2 ex_shared [ln (3 / 2)] 0 a / prob 2 ex_shared [0] 0 a < 1 + 3 / 10) /\ prob 2 ex_shared [ln (3 / 2)] 0 0 <> prob 2 ex_shared [0] 0 0.
Proof. split; [intros [|[|a]] Ha; [| |lia]|]; rewrite ?ex_prob0, ?ex_prob1, exp_ln, exp_0 by lra; lra. Qed.

(** ** C120: improvement *)
(** C120: the loss bounds the gain from below.  With exact advantages of the old policy th, if in no state the mean loss of the new parameters th'
    exceeds 0, which is its value before the updates, then the expected return of th' exceeds that of th by at least minus the mean loss over the
    start states.  This holds for all th', however far away, and all epsilon. *)
Theorem C120_improvement : forall nA N net score eps th th' P dyn gamma v t rho T,
  smooth_policy nA N net score -> 0 <= eps -> length th = N -> length th' = N -> total P = 1 -> (forall p, In p P -> 0 <= p) -> 0 <= gamma -> evaluates nA net P dyn gamma th v ->
  (forall x, In x rho -> 0 <= x) -> (forall s, nth s rho 0 <> 0 -> ends nA P dyn T s) ->
  (forall s, mean_loss nA net eps P dyn gamma v th t th s = 0) /\
  ((forall s, mean_loss nA net eps P dyn gamma v th t th' s <= 0) ->
   expected_return nA net P dyn gamma rho T th - total (map (fun s => nth s rho 0 * mean_loss nA net eps P dyn gamma v th t th' s) (seq 0 (length rho))) <= expected_return nA net P dyn gamma rho T th').
Proof.
  intros nA N net score eps th th' P dyn gamma v t rho T SM HE L L' TP PP HG EV HR HT. split; [intros s; eapply old_loss; eauto|]. intros HL. eapply improvement; eauto.
Qed.
Print Assumptions C120_improvement.
Lemma ex_adv : forall s a, (a < 2)%nat -> advantage [1 / 5; 4 / 5] arms 1 (value_table 1 [3 / 2]) s a = match s with O => if Nat.eqb a 0 then 1 / 2 else - (1 / 2) | _ => 0 end.
Proof.
  intros s a Ha. unfold advantage, action_value. rewrite value_table_is. cbn [seq map length nth arms]. rewrite !total_cons. change (total []) with 0. destruct s as [|s]; destruct a as [|[|a]]; try lia; cbn; lra.
Qed.
Example C120_improvement_ex : evaluates 2 ex_shared [1 / 5; 4 / 5] arms 1 [0] (value_table 1 [3 / 2]) /\
  (forall s, mean_loss 2 ex_shared (1 / 5) [1 / 5; 4 / 5] arms 1 (value_table 1 [3 / 2]) [0] ex_t [ln (3 / 2)] s = match s with O => - (1 / 10) | _ => 0 end) /\
  expected_return 2 ex_shared [1 / 5; 4 / 5] arms 1 [1] 1 [0] = 3 / 2 /\ expected_return 2 ex_shared [1 / 5; 4 / 5] arms 1 [1] 1 [ln (3 / 2)] = 8 / 5.
Proof.
  split; [apply arms_value|]. split.
  - intros s. unfold mean_loss, expectation. cbn [seq map]. rewrite !total_cons. change (total []) with 0. rewrite !(one_loss ex_shared_smooth) by (reflexivity || lia || lra). rewrite !exp_ln by (rewrite ex_half by lia; lra). rewrite !ex_half, ex_prob0, ex_prob1, exp_ln, !ex_adv by (lia || lra). unfold ppo_term. destruct s as [|s]; cbn [Nat.eqb].
    + destruct (Rle_dec 0 (1 / 2)) as [_|N1]; [|lra]. destruct (Rle_dec 0 (- (1 / 2))) as [N1|_]; [lra|]. rewrite Rmin_left by lra. rewrite Rmax_left by lra. lra.
    + destruct (Rle_dec 0 0) as [_|N1]; lra.
  - unfold expected_return, mean_episode. cbn [length seq map nth]. rewrite !total_cons. change (total []) with 0. rewrite !mean_S. unfold expectation. cbn [length seq map nth arms]. rewrite !total_cons. change (total []) with 0. rewrite !ex_half, ex_prob0, ex_prob1, exp_ln by (lia || lra). cbn. lra.
Qed.

(** ** C120: recorded log-propensities *)
(** C120: transitions of the present policy can be ignored.  The log-propensity returned by policy(s, return_logp=True) is that of a relaxed sample.
    For two actions, every temperature tau of the relaxation and all logits further apart than 2 ln (1 + epsilon), there is an open set of draws for
    which the likelier action is taken and reported with less than 1/(1 + epsilon) of its probability, so that updates from this very transition, with
    unchanged parameters and any positive advantage, do nothing. *)
Theorem C120_recorded_refuted : forall N net score eps grads tau th s z0 z1,
  smooth_policy 2 N net score -> 0 < eps -> ppo_differentiates 2 N net eps grads -> 0 < tau -> length th = N -> net th s = [z0; z1] -> 2 * ln (1 + eps) < z0 - z1 ->
  exists c, 0 < c /\ (exists u0 u1, 0 < u0 < 1 /\ 0 < u1 < 1 /\ 0 < gumbel u0 - gumbel u1 + (z0 - z1) < c) /\
  forall u0 u1 gs, noise 2 gs -> 0 < gumbel u0 - gumbel u1 + (z0 - z1) < c ->
  exists logp, policy_call 2 tau (net th s) [u0; u1] gs = Ok (0%nat, logp) /\
    forall lr l t adv, 0 < adv -> l_opt l = sgd lr -> f_params (l_func l) = wrap th -> exists l', ppo_update 2 net grads eps (one_pbatch 2 s 0 logp t) [adv] l = (l', Ok tt) /\ f_params (l_func l') = wrap th.
Proof.
  intros N net score eps grads tau th s z0 z1 SM HE GR HT L EN HZ. destruct (@ignored_draws tau eps z0 z1 HT HE HZ) as (c & Hc & W & H). exists c. split; [exact Hc|]. split; [exact W|]. intros u0 u1 gs Ng HD. destruct (H u0 u1 gs Ng HD) as (logp & E & B). exists logp. split; [now rewrite EN|].
  intros lr l t adv HA HO HP. destruct (@C120_stops 2 N net score eps grads lr [(one_pbatch 2 s 0 logp t, [adv])] l th SM ltac:(lra) GR HO HP L) as (l' & E1 & _ & E2).
  - intros b Adv [X|[]]. injection X as <- <-. exists [mkRow s 0 1 logp adv]. split; [apply one_rows; lia|]. intros x [<-|[]]. right. left. split; [exact HA|]. unfold row_ratio, prob. cbn [w_s w_a w_logp]. now rewrite EN.
  - exists l'. split; auto. cbn [ppo_updates] in E1. destruct (ppo_update 2 net grads eps (one_pbatch 2 s 0 logp t) [adv] l) as [l1 [[]|e]]; [exact E1|discriminate].
Qed.
Print Assumptions C120_recorded_refuted.
Example C120_recorded_refuted_ex : smooth_policy 2 1 ex_shared (softmax_score 2 ex_shared ex_jac) /\ ex_shared [1] 0 = [1; 0] /\ 2 * ln (1 + 1 / 5) < 1 - 0 /\ noise 2 [1; 2].
Proof.
  split; [exact ex_shared_smooth|]. split; [reflexivity|]. split. 2:{ apply PolicyProps.ex_noise. }
  assert (ln (1 + 1 / 5) <= 1 / 5). { rewrite <- (ln_exp (1 / 5)) at 2. destruct (exp_ineq1_le (1 / 5)) as [X|X]; [left; apply ln_increasing; lra|rewrite X; lra]. } lra.
Qed.
(** C120: what holds.  If the logits of a state are all equal, as for networks whose last layer starts at zero, the first update from a fresh
    transition is that of VanillaPG, for any draws and any number of actions. *)
Theorem C120_recorded_partial : forall nA N net score eps grads pgrads tau lr l th s us gs t adv,
  smooth_policy nA N net score -> 0 < eps -> ppo_differentiates nA N net eps grads -> pg_differentiates nA N net pgrads -> l_opt l = sgd lr -> f_params (l_func l) = wrap th -> length th = N ->
  (1 <= nA)%nat -> 0 < tau -> length us = nA -> noise nA gs -> (forall i j, (i < nA)%nat -> (j < nA)%nat -> nth i (net th s) 0 = nth j (net th s) 0) ->
  exists a logp l1 l2, policy_call nA tau (net th s) us gs = Ok (a, logp) /\ (a < nA)%nat /\ ppo_update nA net grads eps (one_pbatch nA s a logp t) [adv] l = (l1, Ok tt) /\
    pg_update nA net pgrads (mk_fb [s] [one_hot nA a] [1] t) [adv] l = (l2, Ok tt) /\ f_params (l_func l1) = f_params (l_func l2).
Proof.
  intros nA N net score eps grads pgrads tau lr l th s us gs t adv SM HE GR PG HO HP L Hn HT Lu Ng HZ. assert (LZ : length (net th s) = nA) by (apply SM; auto).
  destruct (@PolicyProps.C71_uniform_partial nA tau (net th s) us gs Hn HT LZ Lu Ng HZ) as (a & E & Ha).
  destruct (@C120_vanilla nA N net score eps grads pgrads lr l th s a t adv SM HE GR PG HO HP L Ha) as (l1 & l2 & E1 & E2 & E3). exists a, (ln (prob nA net th s a)), l1, l2. auto.
Qed.
Print Assumptions C120_recorded_partial.
Example C120_recorded_partial_ex : forall i j, (i < 2)%nat -> (j < 2)%nat -> nth i (ex_shared [0] 7%nat) 0 = nth j (ex_shared [0] 7%nat) 0.
Proof. intros [|[|i]] [|[|j]] Hi Hj; auto; lia. Qed.
