(** C117: training in stochastic environments.  Model: LearnModel.v; specifications: NoiseSpec.v, LearnSpec.v. *)
From Coq Require Import List Lia Bool Arith Reals Lra.
From Verif Require Import PyCommon CommonProofs UtilsModel UtilsSpec UtilsProofs2 UtilsProofs3 WrappersProofs DistModel DistSpec DistProofs DistProofs2 DistProofs3 LossModel LossSpec LossProofs QModel QProofs QProps TDModel TDSpec TDProofs TDProofs2 TDProofs3 TDProofs4 CoreModel CoreSpec CoreProofs LearnModel LearnSpec LearnProofs LearnProofs2 LearnProofs3 LearnProofs4 LearnProofs5 LearnProofs6 LearnProofs7 NoiseSpec NoiseProofs NoiseProofs2 NoiseProofs3 NoiseProofs4 NoiseProofs5.
Import ListNotations.
Set Implicit Arguments.
Local Open Scope R_scope.

(** ** Every execution *)
(** Whatever the noise, whatever is replayed in whatever order: no update raises, and values that lie between lo - D and hi + D stay
    there, if lo and hi bound the worth of every transition. *)
Theorem C117_stays_between : forall nS nA nW dyn gamma net target val loss grads sub lr wl cl M B lo hi D y os, noisy_setting nS nA nW dyn gamma net target val loss grads lr wl cl M B ->
  at_least nS nA nW dyn gamma val lo -> at_most nS nA nW dyn gamma val hi -> (forall s a, (s < nS)%nat -> (a < nA)%nat -> hi s a - lo s a + (1 + gamma) * D <= M) -> 0 <= D ->
  sgd_learner lr sub y -> between nS nA net (q_params y) lo hi D -> between nS nA net (targ_params y) lo hi D ->
  (forall o, In o os -> noisy_op nS nA nW dyn gamma lr wl B o) -> (y_targ y = None -> forall o, In o os -> exists b, o = YUpdate b) ->
  exists y', yrun nA net target loss grads sub y os = (y', Ok tt) /\ between nS nA net (q_params y') lo hi D /\ between nS nA net (targ_params y') lo hi D.
Proof.
  intros nS nA nW dyn gamma net target val loss grads sub lr wl cl M B lo hi D y os SET LO HI HM HD SG B1 B2 OK NS. destruct (noisy_beta SET) as [_ Hb]. destruct SET as (HA & HW & CL & Hg & TB & AL & PL & GR & Hlr & Hwl & Hlw & HB). pose proof (table_tabular TB) as T. destruct (algorithm_ok HA T AL) as [ST _]. destruct (algorithm_one HA AL) as [OS [v HV]].
  destruct (@between_never nS nA nW HA net T dyn CL gamma Hg target val ST OS v HV loss grads sub D M cl lr wl B PL GR Hlr Hwl lo hi LO HI HM ltac:(lra) os y D) as (y' & R & _ & G); auto; [lra|]. exists y'. auto.
Qed.
Print Assumptions C117_stays_between.
(** After every round - all pairs updated, then the target network synchronised - the distance to the values between lo and hi has
    shrunk by a constant factor. *)
Theorem C117_luck_rate : forall nS nA nW dyn gamma net target val loss grads sub lr wl cl M B lo hi D y tau0 rounds, noisy_setting nS nA nW dyn gamma net target val loss grads lr wl cl M B ->
  at_least nS nA nW dyn gamma val lo -> at_most nS nA nW dyn gamma val hi -> (forall s a, (s < nS)%nat -> (a < nA)%nat -> hi s a - lo s a + (1 + gamma) * D <= M) -> 0 <= D ->
  sgd_learner lr sub y -> between nS nA net (q_params y) lo hi D -> between nS nA net (targ_params y) lo hi D -> 0 < tau0 <= 1 ->
  (forall os, In os rounds -> noisy_round nS nA nW dyn gamma lr wl tau0 B y os) ->
  let D' := (1 - tau0 * (lr * wl * cl / INR B * (1 - gamma))) ^ length rounds * D in
  exists y', yrun nA net target loss grads sub y (concat rounds) = (y', Ok tt) /\ between nS nA net (q_params y') lo hi D' /\ between nS nA net (targ_params y') lo hi D'.
Proof.
  intros nS nA nW dyn gamma net target val loss grads sub lr wl cl M B lo hi D y tau0 rounds SET LO HI HM HD SG B1 B2 Ht RD D'. destruct (noisy_beta SET) as [_ Hb]. destruct SET as (HA & HW & CL & Hg & TB & AL & PL & GR & Hlr & Hwl & Hlw & HB). pose proof (table_tabular TB) as T. destruct (algorithm_ok HA T AL) as [ST _]. destruct (algorithm_one HA AL) as [OS [v HV]].
  apply (@between_rounds nS nA nW HA net T dyn CL gamma Hg target val ST OS v HV loss grads sub D M cl lr wl B PL GR Hlr Hwl lo hi LO HI HM ltac:(lra) tau0 rounds y D); auto. lra.
Qed.
Print Assumptions C117_luck_rate.
(** Hence the values of every execution approach the interval between the worst luck and the best luck. *)
Theorem C117_luck_limit : forall nS nA nW dyn gamma net target val loss grads sub lr wl cl M B lo hi D y tau0 eps, noisy_setting nS nA nW dyn gamma net target val loss grads lr wl cl M B -> gamma < 1 ->
  worst_luck nS nA nW dyn gamma val lo -> best_luck nS nA nW dyn gamma val hi -> (forall s a, (s < nS)%nat -> (a < nA)%nat -> hi s a - lo s a + (1 + gamma) * D <= M) -> 0 <= D ->
  sgd_learner lr sub y -> between nS nA net (q_params y) lo hi D -> between nS nA net (targ_params y) lo hi D -> 0 < tau0 <= 1 -> 0 < eps ->
  exists N, forall rounds, (forall os, In os rounds -> noisy_round nS nA nW dyn gamma lr wl tau0 B y os) -> (N <= length rounds)%nat ->
  exists y', yrun nA net target loss grads sub y (concat rounds) = (y', Ok tt) /\ between nS nA net (q_params y') lo hi eps.
Proof.
  intros nS nA nW dyn gamma net target val loss grads sub lr wl cl M B lo hi D y tau0 eps SET Hg1 [LO _] [HI _] HM HD SG B1 B2 Ht He. pose proof (noisy_beta SET) as [_ Hb]. unfold beta in Hb. pose proof SET as (HA & HW & CL & Hg & _).
  set (r := 1 - tau0 * (lr * wl * cl / INR B * (1 - gamma))).
  assert (Hr : 0 <= r < 1). { unfold r. assert (0 < lr * wl * cl / INR B * (1 - gamma) <= 1) by (split; [apply Rmult_lt_0_compat; lra|]; rewrite <- (Rmult_1_r 1); apply Rmult_le_compat; lra). assert (0 < tau0 * (lr * wl * cl / INR B * (1 - gamma)) <= 1) by (split; [apply Rmult_lt_0_compat; lra|]; rewrite <- (Rmult_1_r 1); apply Rmult_le_compat; lra). lra. }
  destruct (@pow_small r D eps Hr HD He) as [N HN]. exists N. intros rounds RD LN. destruct (@C117_luck_rate nS nA nW dyn gamma net target val loss grads sub lr wl cl M B lo hi D y tau0 rounds SET LO HI HM HD SG B1 B2 Ht RD) as (y' & R & W & _). exists y'. split; auto.
  destruct W as (th & E & L & H). exists th. split; auto. split; auto. intros s a Hs Ha. destruct (H s a Hs Ha) as (x & X1 & X2). exists x. split; auto. fold r in X2. specialize (HN _ LN). lra.
Qed.
Print Assumptions C117_luck_limit.
(** The values under the best and the worst luck exist and are unique. *)
Theorem C117_luck_exists : forall nS nA nW dyn gamma net target val, (1 <= nA)%nat -> (1 <= nW)%nat -> all_closed nS nA nW dyn -> 0 <= gamma < 1 -> algorithm nA net target val ->
  exists lo hi, worst_luck nS nA nW dyn gamma val lo /\ best_luck nS nA nW dyn gamma val hi /\ (forall s a, (s < nS)%nat -> (a < nA)%nat -> lo s a <= hi s a) /\
  (forall q, worst_luck nS nA nW dyn gamma val q -> forall s a, (s < nS)%nat -> (a < nA)%nat -> q s a = lo s a) /\ (forall q, best_luck nS nA nW dyn gamma val q -> forall s a, (s < nS)%nat -> (a < nA)%nat -> q s a = hi s a).
Proof.
  intros nS nA nW dyn gamma net target val HA HW CL Hg AL. destruct (algorithm_one HA AL) as [OS [v HV]].
  destruct (@luck_solution nS nA nW dyn HW CL gamma Hg val OS v HV (-1)) as (lo & L1 & L2); [now right|]. destruct (@luck_solution nS nA nW dyn HW CL gamma Hg val OS v HV 1) as (hi & H1 & H2); [now left|].
  assert (WL := fun q => @worst_luck_pick nS nA nW dyn HW gamma val OS v HV q). assert (BL := fun q => @best_luck_pick nS nA nW dyn HW gamma val OS v HV q).
  exists lo, hi. split; [now apply WL|]. split; [now apply BL|]. split; [|split; intros q Q; [apply L2; now apply WL|apply H2; now apply BL]].
  (* the iterates are ordered *)
  assert (GAP : exists E, 0 <= E /\ forall s a, (s < nS)%nat -> (a < nA)%nat -> lo s a <= hi s a + E). { exists (bound nS nA (fun s a => lo s a - hi s a)). split; [apply bound_pos|]. intros s a Hs Ha. pose proof (@bound_ok nS nA (fun s a => lo s a - hi s a) s a Hs Ha) as X. unfold Rabs in X. destruct (Rcase_abs _) in X; lra. }
  destruct GAP as (E & PE & GE).
  assert (SH : forall n s a, (s < nS)%nat -> (a < nA)%nat -> lo s a <= hi s a + gamma ^ n * E).
  { induction n as [|n IH]; intros s a Hs Ha; [cbn [pow]; rewrite Rmult_1_l; now apply GE|]. rewrite (L1 s a Hs Ha), (H1 s a Hs Ha). destruct (@pick_ok nW dyn HW gamma v (-1) lo s a) as [_ M1]. destruct (@pick_ok nW dyn HW gamma v 1 hi s a) as [_ M2]. specialize (M1 0%nat ltac:(lia)). specialize (M2 0%nat ltac:(lia)).
    assert (ROW : row_worth dyn gamma v lo 0 s a <= row_worth dyn gamma v hi 0 s a + gamma ^ S n * E); [|lra]. unfold row_worth. destruct (ends (dyn 0%nat) s a); [assert (0 <= gamma ^ S n * E) by (apply Rmult_le_pos; auto; apply pow_le; lra); lra|].
    assert (v (next (dyn 0%nat) s a) (lo (next (dyn 0%nat) s a)) <= v (next (dyn 0%nat) s a) (hi (next (dyn 0%nat) s a)) + gamma ^ n * E). { eapply OS; [|apply HV|apply HV]. intros c Hc. apply IH; auto. apply (CL 0%nat); auto. }
    cbn [pow]. rewrite Rmult_assoc. match goal with |- _ + gamma * ?x <= _ + gamma * ?z + _ => assert (gamma * x <= gamma * (z + gamma ^ n * E)) by (apply Rmult_le_compat_l; lra) end. lra. }
  intros s a Hs Ha. apply Rnot_lt_le. intros C. destruct (@pow_small gamma E ((lo s a - hi s a) / 2) Hg PE) as [N HN]; [lra|]. specialize (HN N (le_n _)). specialize (SH N s a Hs Ha). lra.
Qed.
Print Assumptions C117_luck_exists.
(** Rewards of absolute value at most r: q-values that are at most r / (1 - gamma) in absolute value stay so, in every execution of
    QLearning and ExpectedSarsa. *)
Theorem C117_bounded : forall nS nA nW dyn gamma net target val loss grads sub lr wl cl M B r y os, noisy_setting nS nA nW dyn gamma net target val loss grads lr wl cl M B -> gamma < 1 ->
  val = by_max nA \/ (exists pi, (forall s, length (pi s) = nA) /\ val = by_policy nA pi) ->
  (forall w s a, (w < nW)%nat -> (s < nS)%nat -> (a < nA)%nat -> Rabs (reward (dyn w) s a) <= r) -> 0 <= r -> 2 * (r / (1 - gamma)) <= M ->
  sgd_learner lr sub y -> within nS nA net (q_params y) (fun _ _ => 0) (r / (1 - gamma)) -> within nS nA net (targ_params y) (fun _ _ => 0) (r / (1 - gamma)) ->
  (forall o, In o os -> noisy_op nS nA nW dyn gamma lr wl B o) -> (y_targ y = None -> forall o, In o os -> exists b, o = YUpdate b) ->
  exists y', yrun nA net target loss grads sub y os = (y', Ok tt) /\ within nS nA net (q_params y') (fun _ _ => 0) (r / (1 - gamma)).
Proof.
  intros nS nA nW dyn gamma net target val loss grads sub lr wl cl M B r y os SET Hg1 HVAL HR Hr HM SG W1 W2 OK NS. pose proof SET as (HA & HW & CL & Hg & TB & _). set (c := r / (1 - gamma)) in *.
  assert (Ec : r + gamma * c = c) by (unfold c; field; lra). assert (Pc : 0 <= c) by (unfold c; apply Rmult_le_pos; auto; left; apply Rinv_0_lt_compat; lra).
  assert (VC : forall s x, val s (fun _ => x) x).
  { intros s x. destruct HVAL as [-> | (pi & Hp & ->)].
    - split; [exists 0%nat; split; [lia|auto]|intros; lra].
    - red. unfold expectation. rewrite (@total_ext _ (fun a => boltzmann nA (pi s) a * x) (fun a => x * boltzmann nA (pi s) a)) by (intros; ring). rewrite total_scal. rewrite (proj2 (@boltzmann_dist nA HA (pi s) (Hp s))). ring. }
  assert (CV : forall p, between nS nA net p (fun _ _ => - c) (fun _ _ => c) 0 <-> within nS nA net p (fun _ _ => 0) c).
  { intros p. split; intros (th & E & L & H); exists th; (split; [exact E|split; [exact L|]]); intros s a Hs Ha; destruct (H s a Hs Ha) as (x & X1 & X2); exists x; (split; [exact X1|]); [apply Rabs_le; lra|unfold Rabs in X2; destruct (Rcase_abs _) in X2; lra]. }
  destruct (@C117_stays_between nS nA nW dyn gamma net target val loss grads sub lr wl cl M B (fun _ _ => - c) (fun _ _ => c) 0 y os SET) as (y' & R & B1 & B2); auto.
  - intros s a w Hs Ha Hw. eexists. split; [exists (- c); split; [apply VC|reflexivity]|]. specialize (HR w s a Hw Hs Ha). unfold Rabs in HR. destruct (Rcase_abs _) in HR; destruct (ends (dyn w) s a); nra.
  - intros s a w Hs Ha Hw. eexists. split; [exists c; split; [apply VC|reflexivity]|]. specialize (HR w s a Hw Hs Ha). unfold Rabs in HR. destruct (Rcase_abs _) in HR; destruct (ends (dyn w) s a); nra.
  - intros. lra.
  - lra.
  - now apply CV.
  - now apply CV.
  - exists y'. split; auto. now apply CV.
Qed.
Print Assumptions C117_bounded.

(** ** The mean over the noise *)
(** ExpectedSarsa with the squared loss, pairs and weights decided before the noise is drawn, a fresh noise for each row: no execution
    raises, and the mean of the values approaches, round by round, the solution q of the Bellman equation of the mean environment. *)
Theorem C117_mean : forall nS nA dyn P gamma net pi grads sub lr wl B q D y tau0 rounds (os : list nat -> list yop),
  distribution P -> (forall s, length (pi s) = nA) -> noisy_setting nS nA (length P) dyn gamma net (target_expected nA net pi) (by_policy nA pi) mse grads lr wl 1 0 B ->
  mean_bellman nS nA (length P) dyn P gamma (by_policy nA pi) q -> 0 <= D -> sgd_learner lr sub y -> within nS nA net (q_params y) q D -> within nS nA net (targ_params y) q D -> 0 < tau0 <= 1 ->
  (forall ds, In ds rounds -> decision_round nS nA lr wl tau0 B y ds) ->
  let n := noises (concat rounds) in
  (forall ws, noise_list (length P) n ws -> follows nS nA (length P) dyn gamma (concat rounds) ws (os ws)) ->
  exists v : list nat -> nat -> nat -> R,
  (forall ws, noise_list (length P) n ws -> exists y' th, yrun nA net (target_expected nA net pi) mse grads sub y (os ws) = (y', Ok tt) /\ q_params y' = Node [0%nat] [Node [0%nat] [Leaf th]] /\
    forall s a, (s < nS)%nat -> (a < nA)%nat -> q_call_a (Some nA) (one_hot nA) (fun x => x) (net th) s a = Ok (v ws s a)) /\
  forall s a, (s < nS)%nat -> (a < nA)%nat -> Rabs (mean_over P n (fun ws => v ws s a) - q s a) <= (1 - tau0 * (lr * wl / INR B * (1 - gamma))) ^ length rounds * D.
Proof.
  intros nS nA dyn P gamma net pi grads sub lr wl B q D y tau0 rounds os HP Hpi SET BE HD SG W1 W2 Ht RD n FO. destruct (noisy_beta SET) as [_ Hb]. destruct SET as (HA & HW & CL & Hg & TB & AL & PL & GR & Hlr & Hwl & Hlw & HB). pose proof (table_tabular TB) as T.
  destruct (proj1 (within_err q _ _ T) W1) as (th & E1 & L1 & X1). destruct (proj1 (within_err q _ _ T) W2) as (targ & E2 & L2 & X2).
  assert (T1 : tab (q_params y) = th) by (rewrite E1; reflexivity). assert (T2 : tab (targ_params y) = targ) by (rewrite E2; reflexivity).
  set (x := (tq nA th, tq nA targ) : tstate).
  assert (OK : ok_sys nS nA sub lr y) by (split; auto; split; split; [now rewrite T1|congruence|now rewrite T2|congruence]).
  assert (SH : shows nS nA y x) by (intros s a _ _; rewrite T1, T2; split; reflexivity).
  assert (NSY : has_targ y = false -> forall d, In d (concat rounds) -> exists rows W, d = DUpdate rows W).
  { unfold has_targ. intros N d Hd. apply in_concat in Hd. destruct Hd as (ds & I1 & I2). destruct (RD ds I1) as [_ X]. destruct (y_targ y); [discriminate|]. now apply X. }
  exists (fun ws => fst (srun nA dyn P gamma pi lr (has_targ y) x (concat rounds) ws)). split.
  - intros ws Hws. destruct (@follow_run nS nA (length P) HA net T dyn CL gamma pi Hpi grads sub lr P GR (concat rounds) ws (os ws) y x (FO ws Hws) OK SH NSY) as (y' & R & (_ & [Q' L'] & _) & _ & S'). exists y', (tab (q_params y')). split; auto. split; [exact Q'|]. intros s a Hs Ha. rewrite (tab_call T (tab (q_params y'))) by auto. f_equal. now apply S'.
  - assert (BE' : forall s a, (s < nS)%nat -> (a < nA)%nat -> q s a = mean_worth (length P) dyn gamma (vpi nA pi) P q s a).
    { intros s a Hs Ha. destruct (BE s a Hs Ha) as (f & F & ->). unfold mean_worth. apply total_ext. intros w Hw. apply in_seq in Hw. f_equal. destruct (F w ltac:(lia)) as (m & M & ->). red in M. unfold row_worth, vpi. now rewrite M. }
    assert (MR := @mean_rounds nS nA HA dyn P HP CL gamma Hg pi Hpi lr Hlr wl B Hwl q BE' ltac:(lra) (has_targ y) tau0 rounds x D Ht HD).
    intros s a Hs Ha. destruct (@mean_run nA HA dyn P HP gamma pi lr (has_targ y) (concat rounds) x s a) as [E _]. cbn [avg fst] in E. unfold n. cbv beta. rewrite E.
    replace (lr * wl / INR B) with (beta 1 lr wl B) by (unfold beta; now rewrite Rmult_1_r). apply MR; auto.
    intros ds I. destruct (RD ds I) as [OKd X]. split; auto. unfold has_targ. destruct (y_targ y); auto.
Qed.
Print Assumptions C117_mean.
(** That Bellman equation has exactly one solution, for each of the algorithms. *)
Theorem C117_mean_solution : forall nS nA dyn P gamma net target val, (1 <= nA)%nat -> distribution P -> all_closed nS nA (length P) dyn -> 0 <= gamma < 1 -> algorithm nA net target val ->
  exists q, mean_bellman nS nA (length P) dyn P gamma val q /\ forall q', mean_bellman nS nA (length P) dyn P gamma val q' -> forall s a, (s < nS)%nat -> (a < nA)%nat -> q' s a = q s a.
Proof.
  intros nS nA dyn P gamma net target val HA HP CL Hg AL. destruct (algorithm_one HA AL) as [OS [v HV]]. exact (@mean_solution nS nA (length P) dyn HA (dist_ne HP) CL gamma Hg val OS v HV P HP eq_refl).
Qed.
Print Assumptions C117_mean_solution.

(** ** Examples *)
Definition noisy_y (lr : R) (th : list R) : sys := mkSys (mkLearner KTD (mkFunc 0 (wrap th) (Node [] []) 0) (sgd lr) (Node [] [])) None.
Definition zero (s a : nat) : R := 0.
Lemma gamble_setting : forall lr M, 0 < lr <= 1 -> noisy_setting 2 2 2 gamble (1/2) (table1 2) (target_q 2 (table1 2)) (by_max 2) mse (analytic 2 2 (fun y h => h - y) (target_q 2 (table1 2))) lr 1 1 M 1.
Proof.
  intros lr M Hl. split; [lia|]. split; [lia|]. split; [exact gamble_closed|]. split; [lra|]. split; [now left|]. split; [constructor|]. split; [left; auto|]. split; [|repeat split; try lra; lia].
  apply (@analytic_noisy 2 2 2 (fun y h => h - y) (target_q 2 (table1 2)) (table1 2) mse1 gamble (1/2) (by_max 2)); [lia|apply table1_tabular|exact mse_deriv|apply target_q_sound; [lia|apply table1_tabular]].
Qed.
Lemma one_clips : Rmax (1 / 10) (Rmin 1 10) = 1.
Proof. unfold Rmax, Rmin. repeat destruct (Rle_dec _ _); lra. Qed.
Lemma gamble_round : forall lr y ws, 0 < lr <= 1 -> y_targ y = None -> noise_list 2 4 ws -> noisy_round 2 2 2 gamble (1/2) lr 1 1 1 y (row_prog 2 gamble (1/2) four ws).
Proof.
  intros lr y ws Hl NT [L Bd]. destruct ws as [|w0 [|w1 [|w2 [|w3 [|]]]]]; try discriminate. unfold noisy_round. rewrite NT. cbn [row_prog four combine map fst snd].
  assert (OP : forall w s a, (w < 2)%nat -> (s < 2)%nat -> (a < 2)%nat -> noisy_op 2 2 2 gamble (1/2) lr 1 1 (YUpdate (row_batch 2 gamble (1/2) w (s, a)))).
  { intros w s a Hw Hs Ha. exists [(s, a)], [w]. split; [apply row_sampled; auto; exact gamble_closed|]. split; [|cbn; lia]. intros x [<-|[]]. rewrite one_clips. lra. }
  split; [intros o [<-|[<-|[<-|[<-|[]]]]]; apply OP; try lia; apply Bd; cbn; auto|]. split.
  - intros s a Hs Ha. assert (C : (s = 0 \/ s = 1)%nat /\ (a = 0 \/ a = 1)%nat) by lia. destruct C as [[-> | ->] [-> | ->]]; [exists (YUpdate (row_batch 2 gamble (1/2) w2 (0, 0)%nat))|exists (YUpdate (row_batch 2 gamble (1/2) w3 (0, 1)%nat))|exists (YUpdate (row_batch 2 gamble (1/2) w0 (1, 0)%nat))|exists (YUpdate (row_batch 2 gamble (1/2) w1 (1, 1)%nat))]; (split; [cbn [In]; auto|exists 0%nat; split; reflexivity]).
  - intros o [<-|[<-|[<-|[<-|[]]]]]; eauto.
Qed.
Lemma gamble_luck : worst_luck 2 2 2 gamble (1/2) (by_max 2) (fun s _ => match s with 0%nat => -1/2 | _ => -1 end) /\ best_luck 2 2 2 gamble (1/2) (by_max 2) (fun s _ => match s with 0%nat => 1/2 | _ => 1 end).
Proof.
  assert (MX : forall s x, by_max 2 s (fun _ => x) x) by (intros s x; split; [exists 0%nat; split; [lia|auto]|intros; lra]).
  split; split.
  - intros s a w Hs Ha Hw. assert (C : (s = 0 \/ s = 1)%nat) by lia. destruct C as [-> | ->]; (eexists; split; [eexists; split; [apply MX|reflexivity]|]); unfold reward, ends, gamble, next; cbn [fst snd]; [lra|]. unfold coin. destruct (Nat.eqb w 0); lra.
  - intros s a Hs Ha. exists 1%nat. split; [lia|]. assert (C : (s = 0 \/ s = 1)%nat) by lia. destruct C as [-> | ->]; (eexists; split; [apply MX|]); unfold reward, ends, gamble, next; cbn; lra.
  - intros s a w Hs Ha Hw. assert (C : (s = 0 \/ s = 1)%nat) by lia. destruct C as [-> | ->]; (eexists; split; [eexists; split; [apply MX|reflexivity]|]); unfold reward, ends, gamble, next; cbn [fst snd]; [lra|]. unfold coin. destruct (Nat.eqb w 0); lra.
  - intros s a Hs Ha. exists 0%nat. split; [lia|]. assert (C : (s = 0 \/ s = 1)%nat) by lia. destruct C as [-> | ->]; (eexists; split; [apply MX|]); unfold reward, ends, gamble, next; cbn; lra.
Qed.
Example C117_luck_ex : forall ws, noise_list 2 4 ws ->
  noisy_setting 2 2 2 gamble (1/2) (table1 2) (target_q 2 (table1 2)) (by_max 2) mse (analytic 2 2 (fun y h => h - y) (target_q 2 (table1 2))) (1/2) 1 1 100 1 /\
  worst_luck 2 2 2 gamble (1/2) (by_max 2) (fun s _ => match s with 0%nat => -1/2 | _ => -1 end) /\ best_luck 2 2 2 gamble (1/2) (by_max 2) (fun s _ => match s with 0%nat => 1/2 | _ => 1 end) /\
  sgd_learner (1/2) Nat.eqb (noisy_y (1/2) [5; 5; 5; 5]) /\ between 2 2 (table1 2) (q_params (noisy_y (1/2) [5; 5; 5; 5])) (fun s _ => match s with 0%nat => -1/2 | _ => -1 end) (fun s _ => match s with 0%nat => 1/2 | _ => 1 end) 5 /\
  noisy_round 2 2 2 gamble (1/2) (1/2) 1 1 1 (noisy_y (1/2) [5; 5; 5; 5]) (row_prog 2 gamble (1/2) four ws).
Proof.
  intros ws Hws. split; [apply gamble_setting; lra|]. split; [apply gamble_luck|]. split; [apply gamble_luck|]. split; [split; [reflexivity|exact I]|]. split; [|apply gamble_round; auto; lra].
  exists [5; 5; 5; 5]. split; [reflexivity|]. split; [reflexivity|]. intros s a Hs Ha. rewrite (tab_call (@table1_tabular 2 2) [5; 5; 5; 5]) by auto. eexists. split; [reflexivity|]. unfold tq. assert (C : (s = 0 \/ s = 1)%nat /\ (a = 0 \/ a = 1)%nat) by lia. destruct C as [[-> | ->] [-> | ->]]; cbn; lra.
Qed.
(** The uniform policy in the same environment; the mean values are 0. *)
Definition coin_pi (s : nat) : list R := [0; 0].
Lemma gamble_mean_bellman : mean_bellman 2 2 2 gamble [1/2; 1/2] (1/2) (by_policy 2 coin_pi) zero /\ mean_bellman 2 2 2 gamble [1/2; 1/2] (1/2) (by_max 2) zero.
Proof.
  split; intros s a Hs Ha; exists (fun w => match s with 0%nat => 0 | _ => coin w end).
  - split; [|destruct s; unfold total, zero, coin; cbn; lra]. intros w Hw. exists 0. split; [red; unfold expectation, zero; rewrite (@total_ext _ _ (fun _ => 0)) by (intros; ring); rewrite total_const; ring|]. unfold reward, ends, gamble. destruct s; cbn; lra.
  - split; [|destruct s; unfold total, zero, coin; cbn; lra]. intros w Hw. exists 0. split; [split; [exists 0%nat; split; [lia|reflexivity]|intros; unfold zero; lra]|]. unfold reward, ends, gamble. destruct s; cbn; lra.
Qed.
Lemma gamble_decisions : forall lr y, 0 < lr <= 1 -> y_targ y = None -> decision_round 2 2 lr 1 1 1 y (row_decisions four).
Proof.
  intros lr y Hl NT. split.
  - intros d Hd. apply in_map_iff in Hd. destruct Hd as ([s a] & <- & Hd). split; [discriminate|]. split; [cbn; lia|]. split; [reflexivity|]. split; [intros s0 a0 [E|[]]; injection E as <- <-; apply (fours_in 1); cbn [fours]; now rewrite app_nil_r|]. intros w [<-|[]]. rewrite one_clips. lra.
  - rewrite NT. split.
    + intros s a Hs Ha. exists [(s, a)], [1]. split; [|now left]. apply in_map_iff. exists (s, a). split; auto. assert (C : (s = 0 \/ s = 1)%nat /\ (a = 0 \/ a = 1)%nat) by lia. destruct C as [[-> | ->] [-> | ->]]; cbn; auto.
    + intros d Hd. apply in_map_iff in Hd. destruct Hd as (r & <- & _). eauto.
Qed.
Lemma decisions_concat : forall k, concat (repeat (row_decisions four) k) = row_decisions (fours k).
Proof. induction k as [|k IH]; auto. cbn [repeat concat fours]. rewrite IH. unfold row_decisions. now rewrite map_app. Qed.
Example C117_mean_ex : forall k,
  noisy_setting 2 2 2 gamble (1/2) (table1 2) (target_expected 2 (table1 2) coin_pi) (by_policy 2 coin_pi) mse (analytic 2 2 (fun y h => h - y) (target_expected 2 (table1 2) coin_pi)) (1/2) 1 1 0 1 /\
  mean_bellman 2 2 2 gamble [1/2; 1/2] (1/2) (by_policy 2 coin_pi) zero /\ within 2 2 (table1 2) (q_params (noisy_y (1/2) [5; 5; 5; 5])) zero 5 /\
  (forall ds, In ds (repeat (row_decisions four) k) -> decision_round 2 2 (1/2) 1 1 1 (noisy_y (1/2) [5; 5; 5; 5]) ds) /\ noises (concat (repeat (row_decisions four) k)) = (4 * k)%nat /\
  forall ws, noise_list 2 (4 * k) ws -> follows 2 2 2 gamble (1/2) (concat (repeat (row_decisions four) k)) ws (row_prog 2 gamble (1/2) (fours k) ws).
Proof.
  intros k. assert (PL : forall s, length (coin_pi s) = 2%nat) by reflexivity. split; [|split; [apply gamble_mean_bellman|]].
  - split; [lia|]. split; [lia|]. split; [exact gamble_closed|]. split; [lra|]. split; [now left|]. split; [now constructor|]. split; [left; auto|]. split; [|repeat split; try lra; lia].
    apply (@analytic_noisy 2 2 2 (fun y h => h - y) (target_expected 2 (table1 2) coin_pi) (table1 2) mse1 gamble (1/2) (by_policy 2 coin_pi)); [lia|apply table1_tabular|exact mse_deriv|apply target_expected_sound; auto; apply table1_tabular].
  - split; [apply (within_err zero _ _ (@table1_tabular 2 2)); exists [5; 5; 5; 5]; split; [reflexivity|]; split; [reflexivity|]; intros s a Hs Ha; unfold zero; rewrite Rminus_0_r; unfold tq; assert (C : (s = 0 \/ s = 1)%nat /\ (a = 0 \/ a = 1)%nat) by lia; destruct C as [[-> | ->] [-> | ->]]; cbn; rewrite Rabs_right; lra|].
    split; [intros ds Hd; apply repeat_spec in Hd; subst ds; apply gamble_decisions; [lra|reflexivity]|]. rewrite decisions_concat, row_noises, fours_length. split; auto. intros ws Hws. apply row_follows; [exact gamble_closed|apply fours_in|now rewrite fours_length].
Qed.
(** QLearning is different: in that environment every optimal value is 0, but the mean of the learned Q(0, 0) is 1/4 after any number of
    rounds, because the maximum of noisy values is too large in the mean. *)
Theorem C117_q_learning_mean_refuted : exists nS nA dyn P gamma net grads sub lr wl B q D y, let nW := length P in
  distribution P /\ noisy_setting nS nA nW dyn gamma net (target_q nA net) (by_max nA) mse grads lr wl 1 0 B /\ mean_bellman nS nA nW dyn P gamma (by_max nA) q /\
  sgd_learner lr sub y /\ within nS nA net (q_params y) q D /\ within nS nA net (targ_params y) q D /\
  forall k, exists rounds os, length rounds = S k /\ (forall ds, In ds rounds -> decision_round nS nA lr wl 1 B y ds) /\
  let n := noises (concat rounds) in
  (forall ws, noise_list nW n ws -> follows nS nA nW dyn gamma (concat rounds) ws (os ws)) /\
  exists v : list nat -> R,
  (forall ws, noise_list nW n ws -> exists y' th, yrun nA net (target_q nA net) mse grads sub y (os ws) = (y', Ok tt) /\ q_params y' = Node [0%nat] [Node [0%nat] [Leaf th]] /\ q_call_a (Some nA) (one_hot nA) (fun x => x) (net th) 0%nat 0%nat = Ok (v ws)) /\
  q 0%nat 0%nat = 0 /\ mean_over P n v = 1/4.
Proof.
  exists 2%nat, 2%nat, gamble, [1/2; 1/2], (1/2), (table1 2), (analytic 2 2 (fun y h => h - y) (target_q 2 (table1 2))), Nat.eqb, 1, 1, 1%nat, zero, 0, (noisy_y 1 [0; 0; 0; 0]). cbn [length]. cbv zeta.
  assert (SET := @gamble_setting 1 0 ltac:(lra)). assert (T := @table1_tabular 2 2).
  assert (W : within 2 2 (table1 2) (q_params (noisy_y 1 [0; 0; 0; 0])) zero 0). { apply (within_err zero _ _ T). exists [0; 0; 0; 0]. split; [reflexivity|]. split; [reflexivity|]. intros s a Hs Ha. unfold zero, tq. rewrite Rminus_0_r. assert (C : (s = 0 \/ s = 1)%nat /\ (a = 0 \/ a = 1)%nat) by lia. destruct C as [[-> | ->] [-> | ->]]; cbn; rewrite Rabs_R0; lra. }
  split; [exact half_dist|]. split; [exact SET|]. split; [apply gamble_mean_bellman|]. split; [split; [reflexivity|exact I]|]. split; [exact W|]. split; [exact W|].
  intros k. exists (repeat (row_decisions four) (S k)), (fun ws => row_prog 2 gamble (1/2) (fours (S k)) ws). split; [apply repeat_length|]. split; [intros ds Hd; apply repeat_spec in Hd; subst ds; apply gamble_decisions; [lra|reflexivity]|].
  rewrite decisions_concat, row_noises, fours_length. replace (4 * S k)%nat with (4 * k + 4)%nat by lia. split; [intros ws Hws; apply row_follows; [exact gamble_closed|apply fours_in|rewrite fours_length; now replace (4 * S k)%nat with (4 * k + 4)%nat by lia]|].
  exists (fun ws => outcome_of (skipn (4 * k) ws) 0 0). split; [|split; [reflexivity|apply gamble_mean]].
  intros ws Hws. destruct SET as (_ & _ & _ & _ & _ & _ & _ & GR & _). destruct (@fours_run (table1 2) Nat.eqb _ T GR k (noisy_y 1 [0; 0; 0; 0]) ws) as (y' & R & (_ & [Q L] & _) & _ & V); auto.
  - split; [split; [reflexivity|exact I]|]. split; split; reflexivity.
  - exists y', (tab (q_params y')). split; [exact R|]. split; [exact Q|]. rewrite (tab_call T (tab (q_params y'))) by (auto; lia). f_equal. apply V; lia.
Qed.
Print Assumptions C117_q_learning_mean_refuted.
(** And the values themselves do not settle: with one state, one action and rewards 1 and -1 of equal chance, the mean square of the value
    tends to lr / (2 - lr), not to the square 0 of the true value. *)
Theorem C117_fluctuation : forall net pi grads sub lr gamma y x0 k (os : list nat -> list yop), net = table1 1 \/ net = table2 1 1 -> (forall s, length (pi s) = 1%nat) ->
  noisy_differentiates 1 1 2 (fun w _ _ => (0%nat, if Nat.eqb w 0 then 1 else -1, true)) gamma net (target_expected 1 net pi) mse grads -> 0 < lr <= 1 -> sgd_learner lr sub y -> y_targ y = None -> q_params y = Node [0%nat] [Node [0%nat] [Leaf [x0]]] ->
  (forall ws, noise_list 2 k ws -> follows 1 1 2 (fun w _ _ => (0%nat, if Nat.eqb w 0 then 1 else -1, true)) gamma (repeat (DUpdate [(0, 0)%nat] [1]) k) ws (os ws)) ->
  exists v : list nat -> R,
  (forall ws, noise_list 2 k ws -> exists y' th, yrun 1 net (target_expected 1 net pi) mse grads sub y (os ws) = (y', Ok tt) /\ q_params y' = Node [0%nat] [Node [0%nat] [Leaf th]] /\ q_call_a (Some 1%nat) (one_hot 1) (fun x => x) (net th) 0%nat 0%nat = Ok (v ws)) /\
  mean_over [1/2; 1/2] k v = (1 - lr) ^ k * x0 /\
  mean_over [1/2; 1/2] k (fun ws => v ws * v ws) = ((1 - lr) * (1 - lr)) ^ k * (x0 * x0) + lr / (2 - lr) * (1 - ((1 - lr) * (1 - lr)) ^ k).
Proof.
  intros net pi grads sub lr gamma y x0 k os TB Hpi GR Hl SG NT Q FO. pose proof (table_tabular TB) as T. exists (wander lr x0). split; [|split; [apply wander_mean|apply wander_square; lra]].
  intros ws Hws. assert (H1 : (1 <= 1)%nat) by lia. assert (TP : targ_params y = q_params y) by (unfold targ_params; now rewrite NT). set (x := (tq 1 [x0], tq 1 [x0]) : tstate).
  assert (OK : ok_sys 1 1 sub lr y) by (split; auto; rewrite TP, Q; split; split; reflexivity).
  assert (SH : shows 1 1 y x) by (intros s a _ _; rewrite TP, Q; split; reflexivity).
  destruct (@follow_run 1 1 2 H1 net T flip flip_closed gamma pi Hpi grads sub lr [1/2; 1/2] GR _ ws (os ws) y x (FO ws Hws) OK SH) as (y' & R & (_ & [Q' L'] & _) & _ & S').
  - intros _ d Hd. apply repeat_spec in Hd. subst d. eauto.
  - exists y', (tab (q_params y')). split; auto. split; [exact Q'|]. rewrite (tab_call T (tab (q_params y'))) by (auto; lia). f_equal. destruct (S' 0%nat 0%nat ltac:(lia) ltac:(lia)) as [E _]. rewrite E. destruct Hws as [Lw _]. rewrite (@flip_run 1 pi lr (has_targ y) k x ws eq_refl Lw [1/2; 1/2] gamma). reflexivity.
Qed.
Print Assumptions C117_fluctuation.
Example C117_fluctuation_ex : forall k gamma, noisy_differentiates 1 1 2 (fun w _ _ => (0%nat, if Nat.eqb w 0 then 1 else -1, true)) gamma (table1 1) (target_expected 1 (table1 1) (fun _ => [0])) mse (analytic 1 1 (fun y h => h - y) (target_expected 1 (table1 1) (fun _ => [0]))) /\
  sgd_learner (1/2) Nat.eqb (noisy_y (1/2) [3]) /\ forall ws, noise_list 2 k ws -> follows 1 1 2 (fun w _ _ => (0%nat, if Nat.eqb w 0 then 1 else -1, true)) gamma (repeat (DUpdate [(0, 0)%nat] [1]) k) ws (row_prog 1 flip gamma (repeat (0, 0)%nat k) ws).
Proof.
  intros k gamma. split; [|split; [split; [reflexivity|exact I]|]].
  - apply (@analytic_noisy 1 1 2 (fun y h => h - y) (target_expected 1 (table1 1) (fun _ => [0])) (table1 1) mse1 flip gamma (by_policy 1 (fun _ => [0]))); [lia|apply table1_tabular|exact mse_deriv|apply target_expected_sound; auto; apply table1_tabular].
  - intros ws Hws. replace (repeat (DUpdate [(0, 0)%nat] [1]) k) with (row_decisions (repeat (0, 0)%nat k)) by (unfold row_decisions; clear; induction k as [|k IH]; cbn; congruence).
    apply row_follows; [exact flip_closed| |now rewrite repeat_length]. intros s a H. apply repeat_spec in H. injection H as -> ->. lia.
Qed.
Example C117_bounded_ex : forall ws, noise_list 2 4 ws ->
  (forall w s a, (w < 2)%nat -> (s < 2)%nat -> (a < 2)%nat -> Rabs (reward (gamble w) s a) <= 1) /\ within 2 2 (table1 2) (q_params (noisy_y (1/2) [2; -2; 1; 0])) (fun _ _ => 0) (1 / (1 - 1/2)) /\
  sgd_learner (1/2) Nat.eqb (noisy_y (1/2) [2; -2; 1; 0]) /\ 2 * (1 / (1 - 1/2)) <= 100 /\ forall o, In o (row_prog 2 gamble (1/2) four ws) -> noisy_op 2 2 2 gamble (1/2) (1/2) 1 1 o.
Proof.
  intros ws Hws. split; [|split; [|split; [split; [reflexivity|exact I]|split; [lra|]]]].
  - intros w s a _ _ _. unfold reward, gamble, coin. destruct s; cbn [fst snd]; [|destruct (Nat.eqb w 0)]; apply Rabs_le; lra.
  - exists [2; -2; 1; 0]. split; [reflexivity|]. split; [reflexivity|]. intros s a Hs Ha. rewrite (tab_call (@table1_tabular 2 2) [2; -2; 1; 0]) by auto. eexists. split; [reflexivity|]. replace (1 / (1 - 1/2)) with 2 by field. unfold tq. assert (C : (s = 0 \/ s = 1)%nat /\ (a = 0 \/ a = 1)%nat) by lia. destruct C as [[-> | ->] [-> | ->]]; cbn; apply Rabs_le; lra.
  - destruct (@gamble_round (1/2) (noisy_y (1/2) [2; -2; 1; 0]) ws ltac:(lra) eq_refl Hws) as [X _]. exact X.
Qed.
