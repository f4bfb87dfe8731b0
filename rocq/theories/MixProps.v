(** Property C133: a target network with another value transform than the q-function (_qlearning.py:145-146: the transform of q, the inverse
    transform of q_targ; target_q_t in VtModel.v has one argument for each).  [f], [f_inv] are those of q, [f'], [g'] those of q_targ. *)
From Coq Require Import List Lia Bool Arith Reals Lra.
From Verif Require Import PyCommon CommonProofs UtilsModel UtilsSpec UtilsProofs2 UtilsProofs3 WrappersProofs DistModel DistSpec DistProofs DistProofs2 DistProofs3 LossModel LossSpec LossProofs QModel QProofs QProps TDModel TDSpec TDProofs TDProofs2 TDProofs3 TDProofs4 CoreModel CoreSpec CoreProofs LearnModel LearnSpec LearnProofs LearnProofs2 LearnProofs3 LearnProofs4 LearnProofs5 LearnProofs6 LearnProofs7 NoiseSpec NoiseProofs NoiseProofs2 NoiseProofs3 DblModel DblSpec DblProofs DblProofs2 DblProofs3 DblProofs4.
From Verif Require Import LearnProps DblProps VtModel VtSpec VtProofs VtProofs2 VtProofs3 VtProps.
Import ListNotations.
Set Implicit Arguments.
Local Open Scope R_scope.

(** C133: the targets of an update are right for any two transforms: rewards plus the discounted largest number that q_targ returns. *)
Theorem C133_update : forall nS nA net f f_inv f' g' loss h grads sub lr y th targ v rows b, (1 <= nA)%nat -> (net = table1 nS \/ net = table2 nS nA) -> inverse_pair f f_inv -> inverse_pair f' g' -> increasing f' ->
  (loss = mse /\ h = (fun e => e)) \/ (exists delta, 0 < delta /\ loss = huber delta /\ h = (fun e => Rmax (- delta) (Rmin e delta))) ->
  sgd_learner lr sub y -> q_params y = Node [0%nat] [Node [0%nat] [Leaf th]] -> targ_params y = Node [0%nat] [Node [0%nat] [Leaf targ]] -> length th = (nS * nA)%nat -> length targ = (nS * nA)%nat ->
  (forall s a, (s < nS)%nat -> (a < nA)%nat -> q_call_a (Some nA) (one_hot nA) g' (net targ) s a = Ok (v s a)) ->
  rows <> [] -> fb_S b = map fst rows -> fb_A b = map (fun x => one_hot nA (snd x)) rows -> length (fb_W b) = length rows -> length (tb_Rn (fb_t b)) = length rows -> length (tb_In (fb_t b)) = length rows -> length (tb_Snext (fb_t b)) = length rows ->
  (forall s a, In (s, a) rows -> (s < nS)%nat /\ (a < nA)%nat) -> (forall s, In s (tb_Snext (fb_t b)) -> (s < nS)%nat) ->
  gradient (fun p => loss_value (q_loss (Some nA) net (target_q_t nA net f g') loss th targ b p)) th (grads th targ b) ->
  exists G, length G = length rows /\ (forall k s', nth_error (tb_Snext (fb_t b)) k = Some s' -> exists m, is_maximum nA (v s') m /\ nth k G 0 = nth k (tb_Rn (fb_t b)) 0 + nth k (tb_In (fb_t b)) 0 * m) /\
  exists y' th', ystep nA net (target_q_t nA net f g') loss grads sub y (YUpdate b) = (y', Ok tt) /\ y_targ y' = y_targ y /\ q_params y' = Node [0%nat] [Node [0%nat] [Leaf th']] /\ length th' = (nS * nA)%nat /\
  forall s a, (s < nS)%nat -> (a < nA)%nat -> exists old new,
    q_call_a (Some nA) (one_hot nA) f_inv (net th) s a = Ok old /\ q_call_a (Some nA) (one_hot nA) f_inv (net th') s a = Ok new /\
    (~ In (s, a) rows -> new = old) /\
    f new = f old + lr * (total (map (fun i => if same_pair (nth i rows (0, 0)%nat) (s, a) then Rmax (1/10) (Rmin (nth i (fb_W b) 0) 10) * h (f (nth i G 0) - f old) else 0) (seq 0 (length rows))) / INR (length rows)).
Proof.
  intros nS nA net f f_inv f' g' loss h grads sub lr y th targ v rows b HA TB IV IV' INC LF SG Q P L Lt HV NE HS HAc HW L1 L2 L3 HR HN GD. pose proof (table_tabular TB) as T.
  destruct (@target_q_t_boot nS nA HA net T f g' th targ (fb_t b) Lt) as (GT & TG & LG & BG); [split; congruence|auto|].
  destruct (@C102_table_update nS nA net (target_q_t nA net f g') loss h grads sub lr y th targ rows b GT) as (y' & th' & Y1 & Y2 & Y3 & Y4 & C); auto; [congruence|].
  pose proof IV as [GF FG]. exists (map f_inv GT). split; [rewrite map_length; congruence|]. split.
  { intros k s' Hk. destruct (BG k s' Hk) as (x & X1 & X2). assert (Hs' : (s' < nS)%nat) by (apply HN; eapply nth_error_In; eauto). exists (g' x). split.
    - apply (g_max IV' INC) in X1. assert (E : forall a, (a < nA)%nat -> v s' a = g' (tq nA targ s' a)) by (intros a Ha; specialize (HV s' a Hs' Ha); rewrite (tab_call_t g' T) in HV by auto; now injection HV).
      destruct X1 as [(a & Ha & Ea) U]. split; [exists a; split; auto; rewrite E; auto|]. intros c Hc. rewrite E by auto. now apply U.
    - assert (K : (k < length GT)%nat) by (rewrite LG; apply nth_error_Some; congruence). rewrite (@nth_indep _ (map f_inv GT) k 0 (f_inv 0)) by (now rewrite map_length). rewrite map_nth, X2. apply GF. }
  exists y', th'. do 4 (split; auto). intros s a Hs Ha. destruct (C s a Hs Ha) as (old & new & O1 & O2 & O3 & O4). rewrite (tab_call T) in O1, O2 by auto. injection O1 as <-. injection O2 as <-.
  exists (f_inv (tq nA th s a)), (f_inv (tq nA th' s a)). split; [now apply (tab_call_t f_inv T)|]. split; [now apply (tab_call_t f_inv T)|]. split; [intros N; now rewrite (O3 N)|]. rewrite !FG. rewrite O4. do 4 f_equal. apply map_ext_in. intros i Hi. apply in_seq in Hi. rewrite (@nth_indep _ (map f_inv GT) i 0 (f_inv 0)) by (rewrite map_length; lia). rewrite map_nth, FG. reflexivity.
Qed.
Print Assumptions C133_update.

(** What q_targ.soft_update(q, tau) does to the numbers that q_targ returns: it mixes transformed values, each with its own transform. *)
Theorem C133_sync : forall nS nA net f f_inv f' g' target loss grads sub lr y tau th targ, (net = table1 nS \/ net = table2 nS nA) -> inverse_pair f f_inv -> inverse_pair f' g' ->
  sgd_learner lr sub y -> y_targ y <> None -> q_params y = Node [0%nat] [Node [0%nat] [Leaf th]] -> targ_params y = Node [0%nat] [Node [0%nat] [Leaf targ]] -> length th = (nS * nA)%nat -> length targ = (nS * nA)%nat ->
  exists y' targ', ystep nA net target loss grads sub y (YSync tau) = (y', Ok tt) /\ q_params y' = q_params y /\ targ_params y' = Node [0%nat] [Node [0%nat] [Leaf targ']] /\
  forall s a, (s < nS)%nat -> (a < nA)%nat -> exists x v, q_call_a (Some nA) (one_hot nA) f_inv (net th) s a = Ok x /\ q_call_a (Some nA) (one_hot nA) g' (net targ) s a = Ok v /\
    q_call_a (Some nA) (one_hot nA) g' (net targ') s a = Ok (g' (tau * f x + (1 - tau) * f' v)).
Proof.
  intros nS nA net f f_inv f' g' target loss grads sub lr y tau th targ TB [_ FG] [_ FG'] SG NT Q P L Lt. pose proof (table_tabular TB) as T. destruct (y_targ y) as [t0|] eqn:E; [|congruence].
  destruct (@ystep_sync nA net target loss grads sub lr y tau th targ t0 SG E Q P) as (y' & t' & Y1 & Y2 & Y3 & Y4 & Y5); [congruence|]. exists y'. eexists. split; [exact Y1|]. split; [rewrite Y4; now rewrite Q|]. split; [exact Y5|].
  intros s a Hs Ha. exists (f_inv (tq nA th s a)), (g' (tq nA targ s a)). split; [now apply (tab_call_t f_inv T)|]. split; [now apply (tab_call_t g' T)|]. rewrite (tab_call_t g' T) by (auto; now rewrite map_length, seq_length). rewrite FG, FG'. do 2 f_equal. unfold tq. assert (I := @index_lt nS nA s a Hs Ha). rewrite nth_map_seq by lia. cbn [Nat.add]. ring.
Qed.
Print Assumptions C133_sync.

(** So a full synchronisation does not make q_targ return what q returns. *)
Lemma one_inv : inverse_pair (fun x : R => x) (fun x => x). Proof. split; reflexivity. Qed.
Theorem C133_same_refuted : exists f' g', log_transform 1 = Ok (f', g') /\ forall net target loss grads sub lr y targ, (net = table1 1 \/ net = table2 1 1) ->
  sgd_learner lr sub y -> y_targ y <> None -> q_params y = Node [0%nat] [Node [0%nat] [Leaf [ln 4]]] -> targ_params y = Node [0%nat] [Node [0%nat] [Leaf targ]] -> length targ = 1%nat ->
  exists y' targ', ystep 1 net target loss grads sub y (YSync 1) = (y', Ok tt) /\ q_params y' = q_params y /\ targ_params y' = Node [0%nat] [Node [0%nat] [Leaf targ']] /\
  q_call_a (Some 1%nat) (one_hot 1) (fun x => x) (net [ln 4]) 0%nat 0%nat = Ok (ln 4) /\ q_call_a (Some 1%nat) (one_hot 1) g' (net targ') 0%nat 0%nat = Ok 3 /\ ln 4 < 3.
Proof.
  exists f1, g1. split; [exact log1|]. intros net target loss grads sub lr y targ TB SG NT Q P Lt. destruct (@C133_sync 1 1 net (fun x => x) (fun x => x) f1 g1 target loss grads sub lr y 1 [ln 4] targ TB one_inv iv1 SG NT Q P eq_refl Lt) as (y' & targ' & Y1 & Y2 & Y3 & C).
  exists y', targ'. do 3 (split; auto). destruct (C 0%nat 0%nat ltac:(lia) ltac:(lia)) as (x & v & X & _ & Z). rewrite (tab_call_t (fun x => x) (table_tabular TB)) in X by (auto; lia). injection X as <-. split; [rewrite (tab_call_t (fun x => x) (table_tabular TB)) by (auto; lia); reflexivity|]. change (tq 1 [ln 4] 0 0) with (ln 4) in Z. rewrite Z. replace (1 * ln 4 + (1 - 1) * f1 v) with (ln 4) by ring. rewrite g1_ln by lra. split; [f_equal; lra|].
  rewrite <- (ln_exp 3). apply ln_increasing; [lra|]. assert (E := @exp_ineq1 3 ltac:(lra)). lra.
Qed.
Print Assumptions C133_same_refuted.

(** Training with such a target network can diverge, even though nothing is ever earned and the updates are those of QLearning with learning
    rate 1: one state, one action, discount factor 1/2, no transform for q, LogTransform for q_targ. *)
Definition idle_batch : fbatch nat := mk_fb [0%nat] [one_hot 1 0] [1] (mk_tb [0] [1/2] [0%nat] [one_hot 1 0]).
Definition idle (y : sys) (sub : nat -> nat -> bool) (x : R) : Prop := sgd_learner 1 sub y /\ y_targ y <> None /\ q_params y = wrap [x] /\ targ_params y = wrap [x].
Lemma grows : forall x, 4 <= x -> x + 1 <= 1/2 * g1 x.
Proof.
  intros x Hx. replace x with (ln (exp x)) at 2 by apply ln_exp. assert (E0 : x <= exp x) by (assert (Z := exp_ineq1 x ltac:(lra)); lra). rewrite g1_ln by lra. assert (E : exp x = exp (x / 4) ^ 4). { cbn [pow]. rewrite Rmult_1_r, <- !exp_plus. f_equal. field. }
  assert (U := @exp_ineq1 (x / 4) ltac:(lra)). assert (P := @pow_incr (1 + x / 4) (exp (x / 4)) 4 ltac:(lra)). rewrite <- E in P. assert (X : 2 * x + 3 <= (1 + x / 4) ^ 4); [|lra]. set (u := x / 4) in *. replace x with (4 * u) by (unfold u; field). assert (H1 : 1 <= u) by (unfold u; lra). clear - H1. nra.
Qed.
Lemma idle_round : forall net grads sub y x, (net = table1 1 \/ net = table2 1 1) ->
  (forall th targ, length th = 1%nat -> length targ = 1%nat -> gradient (fun p => loss_value (q_loss (Some 1%nat) net (target_q_t 1 net (fun x => x) g1) mse th targ idle_batch p)) th (grads th targ idle_batch)) ->
  idle y sub x -> exists y1 y2, ystep 1 net (target_q_t 1 net (fun x => x) g1) mse grads sub y (YUpdate idle_batch) = (y1, Ok tt) /\ ystep 1 net (target_q_t 1 net (fun x => x) g1) mse grads sub y1 (YSync 1) = (y2, Ok tt) /\ idle y2 sub (1/2 * g1 x).
Proof.
  intros net grads sub y x TB GR (SG & NT & Q & P). pose proof (table_tabular TB) as T. set (tg := target_q_t 1 net (fun x => x) g1) in *.
  assert (TG : tg [x] [x] (fb_t idle_batch) = Ok [1/2 * g1 x]).
  { destruct (@target_q_t_boot 1 1 (le_n 1) net T (fun x => x) g1 [x] [x] (fb_t idle_batch) eq_refl) as (G & TG & [LG BG]); [split; reflexivity|intros s [<-|[]]; lia|]. unfold tg. rewrite TG. f_equal. destruct (BG 0%nat 0%nat eq_refl) as (m & [(a & Ha & M) _] & X). destruct G as [|G0 [|G1 G]]; cbn in LG; try lia. cbn [nth idle_batch fb_t tb_Rn tb_In] in X. rewrite X. assert (a = 0%nat) by lia. subst a. change (tq 1 [x] 0 0) with x in M. subst m. f_equal. lra. }
  destruct (@C102_table_update 1 1 net tg mse (fun e => e) grads sub 1 y [x] [x] [(0, 0)%nat] idle_batch [1/2 * g1 x]) as (y1 & th' & Y1 & Y2 & Y3 & Y4 & C); auto; try (discriminate); try lia.
  { intros s a [X|[]]. injection X as <- <-. lia. }
  destruct (@ystep_update 1 net tg mse grads sub 1 y idle_batch [x] [x] SG Q P) as (y1' & Z1 & Z2 & Z3 & Z4).
  { exact (proj1 (GR [x] [x] eq_refl eq_refl)). }
  { unfold mse. exact (@loss_ok 1 1 net T mse1 tg [(0, 0)]%nat idle_batch [x] [x] [1/2 * g1 x] [x] eq_refl eq_refl eq_refl eq_refl ltac:(discriminate) ltac:(intros s a [X|[]]; injection X as <- <-; lia) TG eq_refl). }
  rewrite Y1 in Z1. injection Z1 as <-.
  assert (EW : Rmax (1/10) (Rmin 1 10) = 1) by (unfold Rmin; destruct (Rle_dec 1 10); [unfold Rmax; destruct (Rle_dec (1/10) 1); lra|lra]).
  assert (E : th' = [1/2 * g1 x]). { destruct (C 0%nat 0%nat ltac:(lia) ltac:(lia)) as (old & new & O1 & O2 & _ & O4). rewrite (tab_call T) in O1 by (auto; lia). rewrite (tab_call T) in O2 by (auto; lia). injection O1 as <-. injection O2 as <-. destruct th' as [|z [|z' th']]; cbn in Y4; try lia. f_equal. change (tq 1 [z] 0 0) with z in O4. rewrite O4. cbn [length seq map nth fb_W idle_batch INR]. rewrite EW. change (tq 1 [x] 0 0) with x. unfold total, same_pair. cbn. field. }
  subst th'. destruct (y_targ y) as [t0|] eqn:ET; [|congruence]. assert (P1 : targ_params y1 = wrap [x]) by (unfold targ_params in *; rewrite Y2, ET in *; exact P).
  destruct (@ystep_sync 1 net tg mse grads sub 1 y1 1 [1/2 * g1 x] [x] t0 Z2 Y2 Y3 P1 eq_refl) as (y2 & t' & V1 & V2 & V3 & V4 & V5). exists y1, y2. split; [exact Y1|]. split; [exact V1|]. split; auto. split; [congruence|]. split; [exact V4|]. rewrite V5. cbn [length seq map nth]. do 2 f_equal. ring.
Qed.
Theorem C133_diverges_refuted : exists f' g' b, log_transform 1 = Ok (f', g') /\ fb_S b = [0%nat] /\ fb_A b = [one_hot 1 0] /\ fb_W b = [1] /\ tb_Rn (fb_t b) = [0] /\ tb_In (fb_t b) = [1/2] /\ tb_Snext (fb_t b) = [0%nat] /\
  forall net grads sub y, (net = table1 1 \/ net = table2 1 1) -> sgd_learner 1 sub y -> y_targ y <> None -> q_params y = Node [0%nat] [Node [0%nat] [Leaf [4]]] -> targ_params y = Node [0%nat] [Node [0%nat] [Leaf [4]]] ->
  (forall th targ, length th = 1%nat -> length targ = 1%nat -> gradient (fun p => loss_value (q_loss (Some 1%nat) net (target_q_t 1 net (fun x => x) g') mse th targ b p)) th (grads th targ b)) ->
  forall n, exists y' th x, yrun 1 net (target_q_t 1 net (fun x => x) g') mse grads sub y (concat (repeat [YUpdate b; YSync 1] n)) = (y', Ok tt) /\ q_params y' = Node [0%nat] [Node [0%nat] [Leaf th]] /\
    q_call_a (Some 1%nat) (one_hot 1) (fun x => x) (net th) 0%nat 0%nat = Ok x /\ 4 + INR n <= x.
Proof.
  exists f1, g1, idle_batch. split; [exact log1|]. do 6 (split; [reflexivity|]). intros net grads sub y TB SG NT Q P GR n.
  assert (A : forall n y x, 4 <= x -> idle y sub x -> exists y' x', yrun 1 net (target_q_t 1 net (fun x => x) g1) mse grads sub y (concat (repeat [YUpdate idle_batch; YSync 1] n)) = (y', Ok tt) /\ idle y' sub x' /\ x + INR n <= x').
  { clear n y SG NT Q P. induction n as [|n IH]; intros y x Hx I; [exists y, x; split; [reflexivity|]; split; auto; cbn; lra|]. destruct (@idle_round net grads sub y x TB GR I) as (y1 & y2 & R1 & R2 & I2). assert (Z := grows Hx). destruct (IH y2 (1/2 * g1 x) ltac:(lra) I2) as (y' & x' & R' & I' & H'). exists y', x'. cbn [repeat concat app yrun]. rewrite R1, R2. split; auto. split; auto. rewrite S_INR. lra. }
  destruct (A n y 4 ltac:(lra) (conj SG (conj NT (conj Q P)))) as (y' & x' & R' & (_ & _ & Q' & _) & H'). exists y', [x'], x'. split; auto. split; [exact Q'|]. split; auto. rewrite (tab_call (table_tabular TB)) by (auto; lia). reflexivity.
Qed.
Print Assumptions C133_diverges_refuted.

(** * Cases *)
Definition mix_y (th targ : list R) : sys := startV th (Some targ).
Lemma mix_sgd : forall th targ, length targ = length th -> sgd_learner 1 Nat.eqb (mix_y th targ) /\ y_targ (mix_y th targ) <> None.
Proof. intros th targ L. split; [now apply startV_sgd|discriminate]. Qed.
Example C133_same_ex : sgd_learner 1 Nat.eqb (mix_y [ln 4] [0]) /\ y_targ (mix_y [ln 4] [0]) <> None /\ q_params (mix_y [ln 4] [0]) = Node [0%nat] [Node [0%nat] [Leaf [ln 4]]] /\ targ_params (mix_y [ln 4] [0]) = Node [0%nat] [Node [0%nat] [Leaf [0]]].
Proof. destruct (@mix_sgd [ln 4] [0] eq_refl). repeat split; auto; apply H. Qed.
(** The transforms of C133_update and C133_sync: none and LogTransform.  The gradients for C133_update and C133_diverges_refuted. *)
Example C133_update_ex : inverse_pair (fun x : R => x) (fun x => x) /\ inverse_pair f1 g1 /\ increasing f1 /\ q_call_a (Some 1%nat) (one_hot 1) g1 (table1 1 [ln 4]) 0%nat 0%nat = Ok 3 /\ sgd_learner 1 Nat.eqb (mix_y [4] [4]) /\
  forall th targ, length th = 1%nat -> length targ = 1%nat -> gradient (fun p => loss_value (q_loss (Some 1%nat) (table1 1) (target_q_t 1 (table1 1) (fun x => x) g1) mse th targ idle_batch p)) th (analytic 1 1 (fun y h => h - y) (target_q_t 1 (table1 1) (fun x => x) g1) th targ idle_batch).
Proof.
  split; [exact one_inv|]. split; [exact iv1|]. split; [exact inc1|]. split; [rewrite (tab_call_t g1 (@table1_tabular 1 1)) by (auto; lia); change (tq 1 [ln 4] 0 0) with (ln 4); rewrite g1_ln by lra; f_equal; lra|]. split; [now apply mix_sgd|]. intros th targ L Lt.
  destruct (@target_q_t_boot 1 1 (le_n 1) (table1 1) (@table1_tabular 1 1) (fun x => x) g1 th targ (fb_t idle_batch) Lt) as (G & TG & [LG _]); [split; reflexivity|intros s [<-|[]]; lia|]. unfold analytic. rewrite TG.
  assert (DR : combine (fb_S idle_batch) (map decode (fb_A idle_batch)) = [(0, 0)]%nat) by (cbn [idle_batch fb_S fb_A map]; rewrite decode_one_hot by lia; reflexivity). rewrite DR.
  apply (@table_gradient 1 1 (le_n 1) (table1 1) (@table1_tabular 1 1) mse1 (fun y h => h - y) mse_deriv (target_q_t 1 (table1 1) (fun x => x) g1) [(0, 0)]%nat idle_batch th targ G th); auto; [discriminate|]. intros s a [X|[]]; injection X as <- <-; lia.
Qed.
