(** Property C123: double Q-learning and clipped double Q-learning on tables.  Specifications in DblSpec.v. *)
From Coq Require Import List Lia Bool Arith Reals Lra.
From Verif Require Import PyCommon CommonProofs UtilsModel UtilsSpec UtilsProofs2 UtilsProofs3 WrappersProofs DistModel DistSpec DistProofs DistProofs2 DistProofs3 LossModel LossSpec LossProofs QModel QProofs QProps TDModel TDSpec TDProofs TDProofs2 TDProofs3 TDProofs4 CoreModel CoreSpec CoreProofs LearnModel LearnSpec LearnProofs LearnProofs2 LearnProofs3 LearnProofs4 LearnProofs5 LearnProofs6 LearnProofs7 LearnProps NoiseSpec NoiseProofs NoiseProofs2 NoiseProofs3 DblModel DblSpec DblProofs DblProofs2 DblProofs3 DblProofs4 DblProofs5.
Import ListNotations.
Set Implicit Arguments.
Local Open Scope R_scope.

Lemma inside_ext : forall nS nA net p lo hi lo' hi', inside nS nA net p lo hi -> (forall s a, (s < nS)%nat -> (a < nA)%nat -> lo' s a <= lo s a) -> (forall s a, (s < nS)%nat -> (a < nA)%nat -> hi s a <= hi' s a) -> inside nS nA net p lo' hi'.
Proof. intros nS nA net p lo hi lo' hi' (th & E & L & H) H1 H2. exists th. split; auto. split; auto. intros s a Hs Ha. destruct (H s a Hs Ha) as (x & X1 & X2). exists x. split; auto. specialize (H1 s a Hs Ha). specialize (H2 s a Hs Ha). lra. Qed.
Lemma inside_within : forall nS nA net p q D, inside nS nA net p (fun s a => q s a - D) (fun s a => q s a + D) <-> within nS nA net p q D.
Proof.
  intros nS nA net p q D. split; intros (th & E & L & H); exists th; (split; [auto|]); (split; [auto|]); intros s a Hs Ha; destruct (H s a Hs Ha) as (x & X1 & X2); exists x; (split; [auto|]).
  - apply Rabs_le. lra.
  - revert X2. unfold Rabs. destruct (Rcase_abs (x - q s a)); lra.
Qed.

Lemma greedy_avg_ext : forall n (h h' k k' : nat -> R) x, (forall a, (a < n)%nat -> h a = k a) -> (forall a, (a < n)%nat -> h' a = k' a) -> greedy_avg n k k' x -> greedy_avg n h h' x.
Proof.
  intros n h h' k k' x E1 E2 (M & ND & NE & HM & ->). exists M. split; auto. split; auto. split.
  - intros a. rewrite HM. split; intros [Ha H]; (split; [auto|]); intros c Hc; specialize (H c Hc); rewrite ?E1 in *; auto.
  - f_equal. apply map_ext_in. intros a Ia. symmetry. apply E2. now apply HM.
Qed.
(** C123: what qlearning_i.update does: only the table of learner i changes, as in C102_table_update, with targets that bootstrap with the
    least of the values of the greedy actions of all target networks according to all target networks. *)
Theorem C123_clipped_update : forall nS nA net loss f cgrads sub lr ys i y th targs vs rows b, (1 <= nA)%nat -> (net = table1 nS \/ net = table2 nS nA) ->
  (loss = mse /\ f = (fun e => e)) \/ (exists delta, 0 < delta /\ loss = huber delta /\ f = (fun e => Rmax (- delta) (Rmin e delta))) ->
  (2 <= length ys)%nat -> nth_error ys i = Some y -> sgd_learner lr sub y -> q_params y = Node [0%nat] [Node [0%nat] [Leaf th]] -> length th = (nS * nA)%nat ->
  map targ_params ys = map (fun t => Node [0%nat] [Node [0%nat] [Leaf t]]) targs -> (forall t, In t targs -> length t = (nS * nA)%nat) ->
  length vs = length targs -> (forall j t v s a, nth_error targs j = Some t -> nth_error vs j = Some v -> (s < nS)%nat -> (a < nA)%nat -> q_call_a (Some nA) (one_hot nA) (fun x => x) (net t) s a = Ok (v s a)) ->
  rows <> [] -> fb_S b = map fst rows -> fb_A b = map (fun x => one_hot nA (snd x)) rows -> length (fb_W b) = length rows -> length (tb_Rn (fb_t b)) = length rows -> length (tb_In (fb_t b)) = length rows -> length (tb_Snext (fb_t b)) = length rows ->
  (forall s a, In (s, a) rows -> (s < nS)%nat /\ (a < nA)%nat) -> (forall s, In s (tb_Snext (fb_t b)) -> (s < nS)%nat) ->
  gradient (fun p => loss_value (q_loss (Some nA) net (fun _ _ => target_clipped nA net targs) loss th [] b p)) th (cgrads th targs b) ->
  exists G, length G = length rows /\ (forall k s', nth_error (tb_Snext (fb_t b)) k = Some s' -> exists m, least_value nA (map (fun v => v s') vs) m /\ nth k G 0 = nth k (tb_Rn (fb_t b)) 0 + nth k (tb_In (fb_t b)) 0 * m) /\
  exists ys' y' th', cstep nA net loss cgrads sub ys (CUpdate i b) = (ys', Ok tt) /\ length ys' = length ys /\ (forall j, j <> i -> nth_error ys' j = nth_error ys j) /\ nth_error ys' i = Some y' /\ y_targ y' = y_targ y /\
  q_params y' = Node [0%nat] [Node [0%nat] [Leaf th']] /\ length th' = (nS * nA)%nat /\
  forall s a, (s < nS)%nat -> (a < nA)%nat -> exists old new,
    q_call_a (Some nA) (one_hot nA) (fun x => x) (net th) s a = Ok old /\ q_call_a (Some nA) (one_hot nA) (fun x => x) (net th') s a = Ok new /\
    (~ In (s, a) rows -> new = old) /\
    new = old + lr * (total (map (fun i => if same_pair (nth i rows (0, 0)%nat) (s, a) then Rmax (1/10) (Rmin (nth i (fb_W b) 0) 10) * f (nth i G 0 - old) else 0) (seq 0 (length rows))) / INR (length rows)).
Proof.
  intros nS nA net loss f cgrads sub lr ys i y th targs vs rows b HA TB LF L2 Ei SG Q L TP LT LV HV NE HS HAc HW L3 L4 L5 HRo HSn GD. pose proof (table_tabular TB) as T.
  assert (LTY : length targs = length ys) by (rewrite <- (map_length targ_params ys), TP, map_length; reflexivity).
  assert (WF : well_formed (fb_t b)) by (split; congruence).
  destruct (@clipped_boot nS nA HA net T targs (fb_t b) ltac:(lia) LT WF HSn) as (G & TG & LG & RG). exists G. split; [congruence|]. split.
  { assert (VAL : forall s', (s' < nS)%nat -> forall m, least_pair nA targs s' m -> least_value nA (map (fun v => v s') vs) m).
    { intros s' Hs' m [(ti & tj & Ii & Ij & G0) LE].
      assert (X : forall t, In t targs -> exists v, In v vs /\ forall a, (a < nA)%nat -> tq nA t s' a = v s' a). { intros t It. destruct (In_nth_error _ _ It) as [j Ej]. destruct (nth_error vs j) as [v|] eqn:Ev; [|apply nth_error_None in Ev; assert (j < length targs)%nat by (apply nth_error_Some; congruence); lia]. exists v. split; [eapply nth_error_In; eauto|]. intros a Ha. specialize (HV j t v s' a Ej Ev Hs' Ha). rewrite (tab_call T) in HV by auto. now injection HV. }
      assert (Y : forall v, In v vs -> exists t, In t targs /\ forall a, (a < nA)%nat -> v s' a = tq nA t s' a). { intros v Iv. destruct (In_nth_error _ _ Iv) as [j Ej]. destruct (nth_error targs j) as [t|] eqn:Ev; [|apply nth_error_None in Ev; assert (j < length vs)%nat by (apply nth_error_Some; congruence); lia]. exists t. split; [eapply nth_error_In; eauto|]. intros a Ha. specialize (HV j t v s' a Ev Ej Hs' Ha). rewrite (tab_call T) in HV by (auto; apply LT; eapply nth_error_In; eauto). now injection HV. }
      split.
      - destruct (X ti Ii) as (vi & Ivi & Evi). destruct (X tj Ij) as (vj & Ivj & Evj). exists (vi s'), (vj s'). split; [apply in_map_iff; eauto|]. split; [apply in_map_iff; eauto|]. refine (greedy_avg_ext _ _ _ _ G0); intros; symmetry; auto.
      - intros h h' x Ih Ih' GX. apply in_map_iff in Ih. apply in_map_iff in Ih'. destruct Ih as (v & <- & Iv). destruct Ih' as (v' & <- & Iv'). destruct (Y v Iv) as (t & It & Et). destruct (Y v' Iv') as (t' & It' & Et'). apply (LE t t' x It It'). refine (greedy_avg_ext _ _ _ _ GX); intros; symmetry; auto. }
    intros k s' Hk. destruct (RG k s' Hk) as (m & M1 & M2). exists m. split; auto. apply VAL; auto. apply HSn. eapply nth_error_In; eauto. }
  assert (UW : unwraps (map targ_params ys) = Some targs). { rewrite TP. clear. induction targs as [|t targs IH]; [reflexivity|]. cbn [map unwraps unwrap]. now rewrite IH. }
  assert (Hi : (i < length ys)%nat) by (apply nth_error_Some; congruence).
  assert (exists targ, targ_params y = wrap targ) as [targ P]. { assert (E := map_nth_error targ_params _ _ Ei). rewrite TP in E. apply nth_error_In, in_map_iff in E. destruct E as (t & E & _). exists t. now rewrite <- E. }
  destruct (@C102_table_update nS nA net (fun _ _ => target_clipped nA net targs) loss f (fun th _ => cgrads th targs) sub lr y th targ rows b G) as (y' & th' & E & E2 & E3 & E4 & E5); auto; [congruence|].
  cbn [cstep]. rewrite Ei, UW, E. exists (put i y' ys), y', th'. split; [reflexivity|]. split; [now apply put_length|]. split; [intros j N; rewrite put_nth by auto; now apply Nat.eqb_neq in N as ->|]. split; [rewrite put_nth by auto; now rewrite Nat.eqb_refl|]. auto.
Qed.
Print Assumptions C123_clipped_update.
(** What q_targ_i.soft_update(q_i, tau) does: only the target network of learner i moves. *)
Theorem C123_clipped_sync : forall nS nA net loss cgrads sub lr ys i y t th targ tau, (net = table1 nS \/ net = table2 nS nA) -> nth_error ys i = Some y -> sgd_learner lr sub y -> y_targ y = Some t ->
  q_params y = Node [0%nat] [Node [0%nat] [Leaf th]] -> targ_params y = Node [0%nat] [Node [0%nat] [Leaf targ]] -> length th = (nS * nA)%nat -> length targ = (nS * nA)%nat ->
  exists ys' y' targ', cstep nA net loss cgrads sub ys (CSync i tau) = (ys', Ok tt) /\ length ys' = length ys /\ (forall j, j <> i -> nth_error ys' j = nth_error ys j) /\ nth_error ys' i = Some y' /\
  q_params y' = q_params y /\ targ_params y' = Node [0%nat] [Node [0%nat] [Leaf targ']] /\ length targ' = (nS * nA)%nat /\
  forall s a, (s < nS)%nat -> (a < nA)%nat -> exists x x' x'', q_call_a (Some nA) (one_hot nA) (fun x => x) (net th) s a = Ok x /\ q_call_a (Some nA) (one_hot nA) (fun x => x) (net targ) s a = Ok x' /\
    q_call_a (Some nA) (one_hot nA) (fun x => x) (net targ') s a = Ok x'' /\ x'' = (1 - tau) * x' + tau * x.
Proof.
  intros nS nA net loss cgrads sub lr ys i y t th targ tau TB Ei SG ET Q P L Lt. pose proof (table_tabular TB) as T. assert (Hi : (i < length ys)%nat) by (apply nth_error_Some; congruence).
  destruct (@ystep_sync nA net (fun _ _ => target_clipped nA net []) loss (fun th _ => cgrads th []) sub lr y tau th targ t SG ET Q P) as (y' & t' & Y1 & Y2 & Y3 & Y4 & Y5); [congruence|].
  cbn [cstep]. rewrite Ei, Y1. eexists (put i y' ys), y', _. split; [reflexivity|]. split; [now apply put_length|]. split; [intros j N; rewrite put_nth by auto; now apply Nat.eqb_neq in N as ->|]. split; [rewrite put_nth by auto; now rewrite Nat.eqb_refl|]. split; [rewrite Y4, Q; reflexivity|]. split; [exact Y5|]. assert (LL : length (map (fun i => (1 - tau) * nth i targ 0 + tau * nth i th 0) (seq 0 (length targ))) = (nS * nA)%nat) by (now rewrite map_length, seq_length). split; [exact LL|].
  intros s a Hs Ha. rewrite !(tab_call T) by auto. eexists _, _, _. do 3 (split; [reflexivity|]). assert (XX := index_lt Hs Ha). unfold LearnProofs.tq. rewrite (@nth_map_any _ _ _ (seq 0 (length targ)) _ 0 0%nat) by (rewrite seq_length; lia). rewrite seq_nth by lia. reflexivity.
Qed.
Print Assumptions C123_clipped_sync.

(** C123: DoubleQLearning never leads outside bounds that hold whatever the later actions are, and initial errors outside them shrink at the
    rate of C103: for every discount factor, with and without a target network, and however the calls of the rounds are mixed. *)
Theorem C123_double_interval : forall nS nA dyn gamma net loss grads sub lr wl cl M B lo hi y D tau0 rounds, scene nS nA dyn gamma net loss lr wl cl M B -> differentiates nS nA dyn gamma net (target_double nA net) loss grads ->
  floor nS nA dyn gamma lo -> ceiling nS nA dyn gamma hi -> 0 <= D -> (forall s a, (s < nS)%nat -> (a < nA)%nat -> hi s a - lo s a + 2 * D <= M) -> sgd_learner lr sub y ->
  inside nS nA net (q_params y) (fun s a => lo s a - D) (fun s a => hi s a + D) -> inside nS nA net (targ_params y) (fun s a => lo s a - D) (fun s a => hi s a + D) -> 0 < tau0 <= 1 ->
  (forall os, In os rounds -> one_round nS nA dyn gamma lr wl tau0 B y os) ->
  let D' := (1 - tau0 * (lr * wl * cl / INR B * (1 - gamma))) ^ length rounds * D in
  exists y', yrun nA net (target_double nA net) loss grads sub y (concat rounds) = (y', Ok tt) /\
    inside nS nA net (q_params y') (fun s a => lo s a - D') (fun s a => hi s a + D') /\ inside nS nA net (targ_params y') (fun s a => lo s a - D') (fun s a => hi s a + D').
Proof.
  intros nS nA dyn gamma net loss grads sub lr wl cl M B lo hi y D tau0 rounds SC GR FL CE HD HM SG I1 I2 Ht RS D'. destruct (scene_parts SC) as (HA & CL & Hg & T & PL & Hlr & Hwl & Hb).
  assert (HM' : forall s a, (s < nS)%nat -> (a < nA)%nat -> hi s a - lo s a + (1 + 1) * D <= M) by (intros; replace (1 + 1) with 2 by ring; auto).
  destruct (@one_rounds nS nA HA net T dyn gamma loss sub M cl lr wl B PL Hlr Hwl Hb lo hi 1 gamma D Rlt_0_1 Hg HM' false (@interval_BB nS nA dyn CL gamma Hg lo hi D FL CE) (@interval_TE nS nA HA dyn gamma lo hi FL CE) grads GR tau0 rounds y D Ht ltac:(lra) SG ltac:(discriminate)) as (y' & R & _ & J1 & J2); auto;
    try (eapply inside_ext; [eassumption|intros; cbv beta; lra|intros; cbv beta; lra]).
  exists y'. split; auto. split; (eapply inside_ext; [eassumption|intros; cbv beta; unfold D', beta; lra|intros; cbv beta; unfold D', beta; lra]).
Qed.
Print Assumptions C123_double_interval.
(** With discount factors below 1/2 it converges to the optimal values. *)
Theorem C123_double_rate : forall nS nA dyn gamma net loss grads sub lr wl cl B q y D tau0 rounds, gamma < 1/2 -> scene nS nA dyn gamma net loss lr wl cl (2 * (1 - gamma) / (1 - 2 * gamma) * D) B -> differentiates nS nA dyn gamma net (target_double nA net) loss grads ->
  bellman nS nA dyn gamma (by_max nA) q -> 0 <= D -> sgd_learner lr sub y -> within nS nA net (q_params y) q D -> within nS nA net (targ_params y) q D -> 0 < tau0 <= 1 ->
  (forall os, In os rounds -> one_round nS nA dyn gamma lr wl tau0 B y os) ->
  let D' := (1 - tau0 * (lr * wl * cl / INR B * ((1 - gamma) * (1 - 2 * gamma)))) ^ length rounds * (D / (1 - 2 * gamma)) in
  exists y', yrun nA net (target_double nA net) loss grads sub y (concat rounds) = (y', Ok tt) /\ within nS nA net (q_params y') q D' /\ within nS nA net (targ_params y') q D'.
Proof.
  intros nS nA dyn gamma net loss grads sub lr wl cl B q y D tau0 rounds G2 SC GR BE HD SG W1 W2 Ht RS D'. destruct (scene_parts SC) as (HA & CL & Hg & T & PL & Hlr & Hwl & Hb).
  set (eta := 1 - 2 * gamma) in *. assert (He : 0 < eta) by (unfold eta; lra). set (E := D / eta). assert (HE : 0 <= E) by (apply Rmult_le_pos; [lra|left; now apply Rinv_0_lt_compat]). assert (EE : eta * E = D) by (unfold E; field; lra).
  assert (Hgg : 0 <= gamma * (2 + eta) <= 1). { unfold eta. split; [apply Rmult_le_pos; lra|]. assert (0 <= (1 - gamma) * (1 - 2 * gamma)) by (apply Rmult_le_pos; lra). lra. }
  assert (HM : forall s a : nat, (s < nS)%nat -> (a < nA)%nat -> q s a - q s a + (1 + eta) * E <= 2 * (1 - gamma) / eta * D). { intros s a _ _. right. unfold E. unfold eta. field. unfold eta in He. lra. }
  assert (DE : D <= E). { rewrite <- EE. unfold eta. assert (0 <= 2 * gamma * E) by (apply Rmult_le_pos; [lra|exact HE]). lra. }
  apply inside_within in W1. apply inside_within in W2.
  destruct (@one_rounds nS nA HA net T dyn gamma loss sub _ cl lr wl B PL Hlr Hwl Hb q q eta (gamma * (2 + eta)) E He Hgg HM false (@eta_BB nS nA dyn CL gamma Hg q BE eta E He) (@bellman_TE nS nA dyn gamma q BE) grads GR tau0 rounds y E Ht ltac:(lra) SG ltac:(discriminate)) as (y' & R & _ & J1 & J2); auto;
    try (eapply inside_ext; [eassumption|intros; cbv beta; lra|intros; cbv beta; lra]).
  exists y'. split; auto. assert (RT : 1 - tau0 * (beta cl lr wl B * (1 - gamma * (2 + eta))) = 1 - tau0 * (lr * wl * cl / INR B * ((1 - gamma) * eta))) by (unfold beta, eta; ring). rewrite RT in J1, J2. fold E in D'. fold D' in J1, J2.
  assert (PD : 0 <= D'). { apply Rmult_le_pos; auto. apply pow_le. rewrite <- RT. pose proof (@ratek01 (gamma * (2 + eta)) (beta cl lr wl B) Hgg Hb tau0 Ht) as X. unfold ratek in X. lra. }
  assert (eta * D' <= D'). { unfold eta. assert (0 <= 2 * gamma * D') by (apply Rmult_le_pos; [lra|exact PD]). lra. }
  split; apply inside_within; (eapply inside_ext; [eassumption|intros; cbv beta; lra|intros; cbv beta; lra]).
Qed.
Print Assumptions C123_double_rate.
(** Without a target network the action is chosen and evaluated with the same table, and the rate is the one of QLearning, for every
    discount factor. *)
Theorem C123_double_alone : forall nS nA dyn gamma net loss grads sub lr wl cl B q y D tau0 rounds, scene nS nA dyn gamma net loss lr wl cl (2 * D) B -> differentiates nS nA dyn gamma net (target_double nA net) loss grads ->
  bellman nS nA dyn gamma (by_max nA) q -> 0 <= D -> sgd_learner lr sub y -> y_targ y = None -> within nS nA net (q_params y) q D -> 0 < tau0 <= 1 ->
  (forall os, In os rounds -> one_round nS nA dyn gamma lr wl tau0 B y os) ->
  let D' := (1 - tau0 * (lr * wl * cl / INR B * (1 - gamma))) ^ length rounds * D in
  exists y', yrun nA net (target_double nA net) loss grads sub y (concat rounds) = (y', Ok tt) /\ within nS nA net (q_params y') q D'.
Proof.
  intros nS nA dyn gamma net loss grads sub lr wl cl B q y D tau0 rounds SC GR BE HD SG NT W1 Ht RS D'. destruct (scene_parts SC) as (HA & CL & Hg & T & PL & Hlr & Hwl & Hb).
  assert (HM : forall s a, (s < nS)%nat -> (a < nA)%nat -> q s a - q s a + (1 + 1) * D <= 2 * D) by (intros; lra). apply inside_within in W1. assert (TP : targ_params y = q_params y) by (unfold targ_params; now rewrite NT).
  destruct (@one_rounds nS nA HA net T dyn gamma loss sub _ cl lr wl B PL Hlr Hwl Hb q q 1 gamma D Rlt_0_1 Hg HM true (@alone_BB nS nA dyn CL gamma Hg q BE D) (@bellman_TE nS nA dyn gamma q BE) grads GR tau0 rounds y D Ht ltac:(lra) SG ltac:(auto)) as (y' & R & _ & J1 & _); auto; rewrite ?TP;
    try (eapply inside_ext; [eassumption|intros; cbv beta; lra|intros; cbv beta; lra]).
  exists y'. split; auto. apply inside_within. eapply inside_ext; [eassumption|intros; cbv beta; unfold D', beta; lra|intros; cbv beta; unfold D', beta; lra].
Qed.
Print Assumptions C123_double_alone.
(** ClippedDoubleQLearning with any number of learners that share their target networks, as C123_double_interval and C123_double_rate. *)
Theorem C123_clipped_interval : forall nS nA dyn gamma K net loss cgrads sub lr wl cl M B lo hi ys D tau0 rounds, (2 <= K)%nat -> scene nS nA dyn gamma net loss lr wl cl M B -> shared_differentiates nS nA dyn gamma K net loss cgrads ->
  floor nS nA dyn gamma lo -> ceiling nS nA dyn gamma hi -> 0 <= D -> (forall s a, (s < nS)%nat -> (a < nA)%nat -> hi s a - lo s a + 2 * D <= M) -> sgd_learners K lr sub ys ->
  (forall y, In y ys -> inside nS nA net (q_params y) (fun s a => lo s a - D) (fun s a => hi s a + D) /\ inside nS nA net (targ_params y) (fun s a => lo s a - D) (fun s a => hi s a + D)) -> 0 < tau0 <= 1 ->
  (forall os, In os rounds -> c_round nS nA dyn gamma K lr wl tau0 B os) ->
  let D' := (1 - tau0 * (lr * wl * cl / INR B * (1 - gamma))) ^ length rounds * D in
  exists ys', crun nA net loss cgrads sub ys (concat rounds) = (ys', Ok tt) /\ length ys' = K /\
    forall y, In y ys' -> inside nS nA net (q_params y) (fun s a => lo s a - D') (fun s a => hi s a + D') /\ inside nS nA net (targ_params y) (fun s a => lo s a - D') (fun s a => hi s a + D').
Proof.
  intros nS nA dyn gamma K net loss cgrads sub lr wl cl M B lo hi ys D tau0 rounds HK SC GR FL CE HD HM SG II Ht RS D'. destruct (scene_parts SC) as (HA & CL & Hg & T & PL & Hlr & Hwl & Hb).
  assert (HM' : forall s a, (s < nS)%nat -> (a < nA)%nat -> hi s a - lo s a + (1 + 1) * D <= M) by (intros; replace (1 + 1) with 2 by ring; auto).
  destruct (@many_rounds nS nA HA net T dyn gamma loss sub M cl lr wl B PL Hlr Hwl Hb lo hi 1 gamma D Rlt_0_1 Hg HM' false (@interval_BB nS nA dyn CL gamma Hg lo hi D FL CE) (@interval_TE nS nA HA dyn gamma lo hi FL CE) K HK eq_refl cgrads GR tau0 rounds ys D Ht ltac:(lra) SG) as (ys' & R & [LS _] & J); auto.
  { intros y Iy. destruct (II y Iy). split; (eapply inside_ext; [eassumption|intros; cbv beta; lra|intros; cbv beta; lra]). }
  exists ys'. split; auto. split; auto. intros y Iy. destruct (J y Iy). split; (eapply inside_ext; [eassumption|intros; cbv beta; unfold D', beta; lra|intros; cbv beta; unfold D', beta; lra]).
Qed.
Print Assumptions C123_clipped_interval.
Theorem C123_clipped_rate : forall nS nA dyn gamma K net loss cgrads sub lr wl cl B q ys D tau0 rounds, (2 <= K)%nat -> gamma < 1/2 -> scene nS nA dyn gamma net loss lr wl cl (2 * (1 - gamma) / (1 - 2 * gamma) * D) B -> shared_differentiates nS nA dyn gamma K net loss cgrads ->
  bellman nS nA dyn gamma (by_max nA) q -> 0 <= D -> sgd_learners K lr sub ys -> (forall y, In y ys -> within nS nA net (q_params y) q D /\ within nS nA net (targ_params y) q D) -> 0 < tau0 <= 1 ->
  (forall os, In os rounds -> c_round nS nA dyn gamma K lr wl tau0 B os) ->
  let D' := (1 - tau0 * (lr * wl * cl / INR B * ((1 - gamma) * (1 - 2 * gamma)))) ^ length rounds * (D / (1 - 2 * gamma)) in
  exists ys', crun nA net loss cgrads sub ys (concat rounds) = (ys', Ok tt) /\ length ys' = K /\ forall y, In y ys' -> within nS nA net (q_params y) q D' /\ within nS nA net (targ_params y) q D'.
Proof.
  intros nS nA dyn gamma K net loss cgrads sub lr wl cl B q ys D tau0 rounds HK G2 SC GR BE HD SG WW Ht RS D'. destruct (scene_parts SC) as (HA & CL & Hg & T & PL & Hlr & Hwl & Hb).
  set (eta := 1 - 2 * gamma) in *. assert (He : 0 < eta) by (unfold eta; lra). set (E := D / eta). assert (HE : 0 <= E) by (apply Rmult_le_pos; [lra|left; now apply Rinv_0_lt_compat]). assert (EE : eta * E = D) by (unfold E; field; lra).
  assert (Hgg : 0 <= gamma * (2 + eta) <= 1). { unfold eta. split; [apply Rmult_le_pos; lra|]. assert (0 <= (1 - gamma) * (1 - 2 * gamma)) by (apply Rmult_le_pos; lra). lra. }
  assert (HM : forall s a : nat, (s < nS)%nat -> (a < nA)%nat -> q s a - q s a + (1 + eta) * E <= 2 * (1 - gamma) / eta * D). { intros s a _ _. right. unfold E. unfold eta. field. unfold eta in He. lra. }
  assert (DE : D <= E). { rewrite <- EE. unfold eta. assert (0 <= 2 * gamma * E) by (apply Rmult_le_pos; [lra|exact HE]). lra. }
  destruct (@many_rounds nS nA HA net T dyn gamma loss sub _ cl lr wl B PL Hlr Hwl Hb q q eta (gamma * (2 + eta)) E He Hgg HM false (@eta_BB nS nA dyn CL gamma Hg q BE eta E He) (@bellman_TE nS nA dyn gamma q BE) K HK eq_refl cgrads GR tau0 rounds ys E Ht ltac:(lra) SG) as (ys' & R & [LS _] & J); auto.
  { intros y Iy. destruct (WW y Iy) as [W1 W2]. apply inside_within in W1. apply inside_within in W2. split; (eapply inside_ext; [eassumption|intros; cbv beta; lra|intros; cbv beta; lra]). }
  exists ys'. split; auto. assert (RT : 1 - tau0 * (beta cl lr wl B * (1 - gamma * (2 + eta))) = 1 - tau0 * (lr * wl * cl / INR B * ((1 - gamma) * eta))) by (unfold beta, eta; ring). rewrite RT in J. fold E in D'. fold D' in J.
  assert (PD : 0 <= D'). { apply Rmult_le_pos; auto. apply pow_le. rewrite <- RT. pose proof (@ratek01 (gamma * (2 + eta)) (beta cl lr wl B) Hgg Hb tau0 Ht) as X. unfold ratek in X. lra. }
  assert (eta * D' <= D'). { unfold eta. assert (0 <= 2 * gamma * D') by (apply Rmult_le_pos; [lra|exact PD]). lra. }
  split; auto. intros y Iy. destruct (J y Iy). split; apply inside_within; (eapply inside_ext; [eassumption|intros; cbv beta; lra|intros; cbv beta; lra]).
Qed.
Print Assumptions C123_clipped_rate.

Lemma within_start : forall nS nA net q th, (1 <= nA)%nat -> tabular nS nA net -> length th = (nS * nA)%nat -> within nS nA net (Node [0%nat] [Node [0%nat] [Leaf th]]) q (bound nS nA (fun s a => tq nA th s a - q s a)).
Proof. intros nS nA net q th HA T L. apply (within_err _ _ _ T). exists th. split; auto. split; auto. intros s a Hs Ha. exact (@bound_ok nS nA (fun s a => tq nA th s a - q s a) s a Hs Ha). Qed.
Lemma within_more : forall nS nA net p q D D', within nS nA net p q D -> D <= D' -> within nS nA net p q D'.
Proof. intros nS nA net p q D D' (th & E & L & H) HD. exists th. split; auto. split; auto. intros s a Hs Ha. destruct (H s a Hs Ha) as (x & X1 & X2). exists x. split; auto. lra. Qed.
Lemma learners_start : forall nS nA net q ys, (1 <= nA)%nat -> tabular nS nA net ->
  (forall y, In y ys -> exists th targ, q_params y = Node [0%nat] [Node [0%nat] [Leaf th]] /\ targ_params y = Node [0%nat] [Node [0%nat] [Leaf targ]] /\ length th = (nS * nA)%nat /\ length targ = (nS * nA)%nat) ->
  exists D, 0 <= D /\ forall y, In y ys -> within nS nA net (q_params y) q D /\ within nS nA net (targ_params y) q D.
Proof.
  intros nS nA net q ys HA T. induction ys as [|y ys IH]; intros H; [exists 0; split; [lra|intros y []]|]. destruct IH as (D & HD & W); [intros; apply H; now right|]. destruct (H y (or_introl eq_refl)) as (th & targ & Q & P & L & Lt).
  pose proof (@within_start nS nA net q th HA T L) as W1. pose proof (@within_start nS nA net q targ HA T Lt) as W2. pose proof (@bound_pos nS nA (fun s a => tq nA th s a - q s a)). pose proof (@bound_pos nS nA (fun s a => tq nA targ s a - q s a)).
  exists (D + bound nS nA (fun s a => tq nA th s a - q s a) + bound nS nA (fun s a => tq nA targ s a - q s a)). split; [lra|]. intros z [<-|Iz].
  - rewrite Q, P. split; [apply within_more with (1 := W1)|apply within_more with (1 := W2)]; lra.
  - destruct (W z Iz) as [V1 V2]. split; [apply within_more with (1 := V1)|apply within_more with (1 := V2)]; lra.
Qed.
Lemma optimal_values : forall nS nA dyn gamma, (1 <= nA)%nat -> closed nS nA dyn -> 0 <= gamma < 1 -> exists q, bellman nS nA dyn gamma (by_max nA) q /\ forall q', bellman nS nA dyn gamma (by_max nA) q' -> forall s a, (s < nS)%nat -> (a < nA)%nat -> q' s a = q s a.
Proof. intros nS nA dyn gamma HA CL Hg. apply (@C103_bellman_solution nS nA dyn gamma (table1 nS) (target_q nA (table1 nS)) (by_max nA)); auto. constructor. Qed.
Lemma floor_const : forall nS nA dyn gamma q, 0 <= gamma < 1 -> exists L, 0 <= L /\ floor nS nA dyn gamma (fun _ _ => - L) /\ forall s a, (s < nS)%nat -> (a < nA)%nat -> - L <= q s a.
Proof.
  intros nS nA dyn gamma q Hg. set (Rb := bound nS nA (reward dyn) / (1 - gamma)). pose proof (@bound_pos nS nA q). pose proof (@bound_pos nS nA (reward dyn)).
  assert (P : 0 <= Rb) by (apply Rmult_le_pos; [lra|left; apply Rinv_0_lt_compat; lra]). assert (E : (1 - gamma) * Rb = bound nS nA (reward dyn)) by (unfold Rb; field; lra). clearbody Rb. exists (bound nS nA q + Rb). split; [lra|]. split.
  - intros s a c Hs Ha Hc. pose proof (@bound_ok nS nA (reward dyn) s a Hs Ha) as X. pose proof (Rle_abs (- reward dyn s a)). rewrite Rabs_Ropp in H1. assert (0 <= (1 - gamma) * bound nS nA q) by (apply Rmult_le_pos; lra). assert (0 <= gamma * bound nS nA q) by (apply Rmult_le_pos; lra). assert (0 <= gamma * Rb) by (apply Rmult_le_pos; lra). destruct (ends dyn s a); lra.
  - intros s a Hs Ha. pose proof (@bound_ok nS nA q s a Hs Ha) as X. pose proof (Rle_abs (- q s a)). rewrite Rabs_Ropp in H1. lra.
Qed.
Lemma rate_lt : forall lr wl B tau0 g, 0 < lr -> 0 < wl -> lr * wl <= 1 -> (1 <= B)%nat -> 0 < tau0 <= 1 -> 0 < g <= 1 -> 0 <= 1 - tau0 * (lr * wl * 1 / INR B * g) < 1.
Proof.
  intros lr wl B tau0 g Hlr Hwl Hlw HB Ht Hg. assert (PB : 1 <= INR B) by (apply (le_INR 1); lia). assert (0 < / INR B <= 1) by (split; [apply Rinv_0_lt_compat; lra|rewrite <- Rinv_1; apply Rinv_le_contravar; lra]). assert (0 < lr * wl) by (apply Rmult_lt_0_compat; lra).
  assert (0 < lr * wl * 1 / INR B <= 1) by (unfold Rdiv; rewrite Rmult_1_r; split; [apply Rmult_lt_0_compat; lra|nra]). assert (0 < lr * wl * 1 / INR B * g <= 1) by (split; [apply Rmult_lt_0_compat; lra|nra]). assert (0 < tau0 * (lr * wl * 1 / INR B * g) <= 1) by (split; [apply Rmult_lt_0_compat; lra|nra]). lra.
Qed.

(** C123: from any tables, for discount factors below 1/2 to the only solution of the Bellman optimality equation; for every discount factor
    below 1, to values that do not exceed it (no overestimation in the end) and that are bounded below. *)
Theorem C123_double_converges : forall nS nA dyn gamma net, (1 <= nA)%nat -> closed nS nA dyn -> 0 <= gamma < 1 -> (net = table1 nS \/ net = table2 nS nA) ->
  exists q L, bellman nS nA dyn gamma (by_max nA) q /\ (forall q', bellman nS nA dyn gamma (by_max nA) q' -> forall s a, (s < nS)%nat -> (a < nA)%nat -> q' s a = q s a) /\
  forall grads sub lr wl B y tau0 th targ, differentiates nS nA dyn gamma net (target_double nA net) mse grads -> 0 < lr -> 0 < wl -> lr * wl <= 1 -> (1 <= B)%nat -> 0 < tau0 <= 1 -> sgd_learner lr sub y ->
  q_params y = Node [0%nat] [Node [0%nat] [Leaf th]] -> targ_params y = Node [0%nat] [Node [0%nat] [Leaf targ]] -> length th = (nS * nA)%nat -> length targ = (nS * nA)%nat ->
  forall eps, 0 < eps -> exists N, forall rounds, (forall os, In os rounds -> one_round nS nA dyn gamma lr wl tau0 B y os) -> (N <= length rounds)%nat ->
  exists y', yrun nA net (target_double nA net) mse grads sub y (concat rounds) = (y', Ok tt) /\ inside nS nA net (q_params y') (fun s a => - L - eps) (fun s a => q s a + eps) /\ (gamma < 1/2 -> within nS nA net (q_params y') q eps).
Proof.
  intros nS nA dyn gamma net HA CL Hg TB. destruct (@optimal_values nS nA dyn gamma HA CL Hg) as (q & BE & UN). destruct (@floor_const nS nA dyn gamma q Hg) as (L & HL & FL & LQ). exists q, L. split; auto. split; auto.
  intros grads sub lr wl B y tau0 th targ GR Hlr Hwl Hlw HB Ht SG Q P L1 L2 eps He. pose proof (table_tabular TB) as T.
  destruct (@learners_start nS nA net q [y] HA T) as (D & HD & W). { intros z [<-|[]]. exists th, targ. auto. } destruct (W y (or_introl eq_refl)) as [W1 W2].
  assert (SC : forall M, scene nS nA dyn gamma net mse lr wl 1 M B) by (intros M; repeat (split; auto; try lra); now left).
  destruct (@pow_small (1 - tau0 * (lr * wl * 1 / INR B * (1 - gamma))) D eps) as [N1 HN1]; auto; [apply rate_lt; auto; lra|].
  assert (N2X : exists N, gamma < 1/2 -> forall n, (N <= n)%nat -> (1 - tau0 * (lr * wl * 1 / INR B * ((1 - gamma) * (1 - 2 * gamma)))) ^ n * (D / (1 - 2 * gamma)) <= eps).
  { destruct (Rlt_dec gamma (1/2)) as [G2|G2]; [|exists 0%nat; lra]. destruct (@pow_small (1 - tau0 * (lr * wl * 1 / INR B * ((1 - gamma) * (1 - 2 * gamma)))) (D / (1 - 2 * gamma)) eps) as [N HN]; auto; [|apply Rmult_le_pos; [lra|left; apply Rinv_0_lt_compat; lra]|exists N; auto].
    apply rate_lt; auto. split; [apply Rmult_lt_0_compat; lra|]. rewrite <- (Rmult_1_r 1) at 3. apply Rmult_le_compat; lra. }
  destruct N2X as [N2 HN2]. exists (N1 + N2)%nat. intros rounds RS LN.
  pose proof W1 as I1. pose proof W2 as I2. apply inside_within in I1. apply inside_within in I2. set (M := bound nS nA q + L + 2 * D).
  destruct (@C123_double_interval nS nA dyn gamma net mse grads sub lr wl 1 M B (fun _ _ => - L) q y D tau0 rounds) as (y' & R & J & _); auto.
  { now apply (@bellman_ceiling nS nA dyn gamma ltac:(lra)). }
  { intros s a Hs Ha. unfold M. pose proof (@bound_ok nS nA q s a Hs Ha). pose proof (Rle_abs (q s a)). lra. }
  { eapply inside_ext; [exact I1|intros s a Hs Ha; cbv beta; specialize (LQ s a Hs Ha); lra|intros; cbv beta; lra]. }
  { eapply inside_ext; [exact I2|intros s a Hs Ha; cbv beta; specialize (LQ s a Hs Ha); lra|intros; cbv beta; lra]. }
  exists y'. split; auto. specialize (HN1 (length rounds) ltac:(lia)). split; [eapply inside_ext; [exact J|intros; cbv beta; lra|intros; cbv beta; lra]|].
  intros G2. destruct (@C123_double_rate nS nA dyn gamma net mse grads sub lr wl 1 B q y D tau0 rounds) as (y2 & R2 & J2 & _); auto. rewrite R in R2. injection R2 as <-. apply within_more with (1 := J2). apply HN2; auto. lia.
Qed.
Print Assumptions C123_double_converges.
Theorem C123_clipped_converges : forall nS nA dyn gamma net, (1 <= nA)%nat -> closed nS nA dyn -> 0 <= gamma < 1 -> (net = table1 nS \/ net = table2 nS nA) ->
  exists q L, bellman nS nA dyn gamma (by_max nA) q /\ (forall q', bellman nS nA dyn gamma (by_max nA) q' -> forall s a, (s < nS)%nat -> (a < nA)%nat -> q' s a = q s a) /\
  forall K cgrads sub lr wl B ys tau0, (2 <= K)%nat -> shared_differentiates nS nA dyn gamma K net mse cgrads -> 0 < lr -> 0 < wl -> lr * wl <= 1 -> (1 <= B)%nat -> 0 < tau0 <= 1 -> sgd_learners K lr sub ys ->
  (forall y, In y ys -> exists th targ, q_params y = Node [0%nat] [Node [0%nat] [Leaf th]] /\ targ_params y = Node [0%nat] [Node [0%nat] [Leaf targ]] /\ length th = (nS * nA)%nat /\ length targ = (nS * nA)%nat) ->
  forall eps, 0 < eps -> exists N, forall rounds, (forall os, In os rounds -> c_round nS nA dyn gamma K lr wl tau0 B os) -> (N <= length rounds)%nat ->
  exists ys', crun nA net mse cgrads sub ys (concat rounds) = (ys', Ok tt) /\ length ys' = K /\
  forall y, In y ys' -> inside nS nA net (q_params y) (fun s a => - L - eps) (fun s a => q s a + eps) /\ (gamma < 1/2 -> within nS nA net (q_params y) q eps).
Proof.
  intros nS nA dyn gamma net HA CL Hg TB. destruct (@optimal_values nS nA dyn gamma HA CL Hg) as (q & BE & UN). destruct (@floor_const nS nA dyn gamma q Hg) as (L & HL & FL & LQ). exists q, L. split; auto. split; auto.
  intros K cgrads sub lr wl B ys tau0 HK GR Hlr Hwl Hlw HB Ht SG TY eps He. pose proof (table_tabular TB) as T.
  destruct (@learners_start nS nA net q ys HA T TY) as (D & HD & W).
  assert (SC : forall M, scene nS nA dyn gamma net mse lr wl 1 M B) by (intros M; repeat (split; auto; try lra); now left).
  destruct (@pow_small (1 - tau0 * (lr * wl * 1 / INR B * (1 - gamma))) D eps) as [N1 HN1]; auto; [apply rate_lt; auto; lra|].
  assert (N2X : exists N, gamma < 1/2 -> forall n, (N <= n)%nat -> (1 - tau0 * (lr * wl * 1 / INR B * ((1 - gamma) * (1 - 2 * gamma)))) ^ n * (D / (1 - 2 * gamma)) <= eps).
  { destruct (Rlt_dec gamma (1/2)) as [G2|G2]; [|exists 0%nat; lra]. destruct (@pow_small (1 - tau0 * (lr * wl * 1 / INR B * ((1 - gamma) * (1 - 2 * gamma)))) (D / (1 - 2 * gamma)) eps) as [N HN]; auto; [|apply Rmult_le_pos; [lra|left; apply Rinv_0_lt_compat; lra]|exists N; auto].
    apply rate_lt; auto. split; [apply Rmult_lt_0_compat; lra|]. rewrite <- (Rmult_1_r 1) at 3. apply Rmult_le_compat; lra. }
  destruct N2X as [N2 HN2]. exists (N1 + N2)%nat. intros rounds RS LN. set (M := bound nS nA q + L + 2 * D).
  destruct (@C123_clipped_interval nS nA dyn gamma K net mse cgrads sub lr wl 1 M B (fun _ _ => - L) q ys D tau0 rounds) as (ys' & R & LY & J); auto.
  { now apply (@bellman_ceiling nS nA dyn gamma ltac:(lra)). }
  { intros s a Hs Ha. unfold M. pose proof (@bound_ok nS nA q s a Hs Ha). pose proof (Rle_abs (q s a)). lra. }
  { intros y Iy. destruct (W y Iy) as [I1 I2]. apply inside_within in I1. apply inside_within in I2. split; [eapply inside_ext; [exact I1|..]|eapply inside_ext; [exact I2|..]]; intros s a Hs Ha; cbv beta; specialize (LQ s a Hs Ha); lra. }
  exists ys'. split; auto. split; auto. specialize (HN1 (length rounds) ltac:(lia)). intros y Iy. split; [eapply inside_ext; [apply (J y Iy)|intros; cbv beta; lra|intros; cbv beta; lra]|].
  intros G2. destruct (@C123_clipped_rate nS nA dyn gamma K net mse cgrads sub lr wl 1 B q ys D tau0 rounds) as (y2 & R2 & _ & J2); auto. rewrite R in R2. injection R2 as <-. apply within_more with (1 := proj1 (J2 y Iy)). apply HN2; auto. lia.
Qed.
Print Assumptions C123_clipped_converges.

Definition start (P : R) : func := mkFunc 0 (wrap [- P; -1; 0; -1]) (Node [] []) 0.
Definition start_y (P : R) (targ : option func) : sys := mkSys (mkLearner KTD (start P) (sgd 1) (Node [] [])) targ.
Lemma start_st : forall P, st Nat.eqb (start_y P (Some (start P))) (mk 0 (- P) (-1) 0 (-1)) (mk 0 (- P) (-1) 0 (-1)).
Proof.
  intros P. split; [split; [reflexivity|split; reflexivity]|]. split; [discriminate|]. exists [- P; -1; 0; -1], [- P; -1; 0; -1]. do 2 (split; [reflexivity|]).
  assert (L : like [- P; -1; 0; -1] (mk 0 (- P) (-1) 0 (-1))) by (split; [reflexivity|]; intros s a Hs Ha; destruct s as [|[|s]]; [| |lia]; (destruct a as [|[|a]]; [| |lia]); reflexivity). auto.
Qed.
(** The hypotheses of the theorems above are met: the environment of the refutations, with a discount factor of 1/4. *)
Example C123_example : forall P D M, 0 <= P <= D -> scene 2 2 swap (1/4) (table1 2) mse 1 1 1 M 1 /\ differentiates 2 2 swap (1/4) (table1 2) (target_double 2 (table1 2)) mse gd /\ shared_differentiates 2 2 swap (1/4) 2 (table1 2) mse gc /\
  floor 2 2 swap (1/4) (fun _ _ => -2) /\ ceiling 2 2 swap (1/4) (fun _ _ => 0) /\ bellman 2 2 swap (1/4) (by_max 2) qstar /\
  sgd_learner 1 Nat.eqb (start_y P (Some (start P))) /\ sgd_learners 2 1 Nat.eqb [start_y P (Some (start P)); start_y P (Some (start P))] /\ sgd_learner 1 Nat.eqb (start_y P None) /\
  within 2 2 (table1 2) (q_params (start_y P (Some (start P)))) qstar D /\ within 2 2 (table1 2) (targ_params (start_y P (Some (start P)))) qstar D /\ inside 2 2 (table1 2) (q_params (start_y P (Some (start P)))) (fun _ _ => -2 - D) (fun _ _ => 0 + D) /\
  one_round 2 2 swap (1/4) 1 1 1 1 (start_y P (Some (start P))) (round_d (1/4) 1 0) /\ c_round 2 2 swap (1/4) 2 1 1 1 1 (round_c (1/4) 1 0) /\
  one_round 2 2 swap (1/4) 1 1 1 1 (start_y P None) [YUpdate (row_of (1/4) 0 0); YUpdate (row_of (1/4) 0 1); YUpdate (row_of (1/4) 1 0); YUpdate (row_of (1/4) 1 1)].
Proof.
  intros P D M HP. split; [repeat split; try lra; try lia; [exact swap_closed|now left|now left]|]. split; [apply gd_ok|]. split; [apply gc_ok|].
  split; [intros s a c Hs Ha Hc; rewrite swap_ends; destruct a; unfold reward; cbn; lra|]. split; [intros s a c Hs Ha Hc; rewrite swap_ends; destruct a; unfold reward; cbn; lra|]. split; [apply swap_bellman|].
  split; [exact (proj1 (start_st P))|]. split; [split; [reflexivity|]; intros y [<-|[<-|[]]]; (split; [exact (proj1 (start_st P))|discriminate])|]. split; [split; [reflexivity|exact I]|].
  assert (W : within 2 2 (table1 2) (q_params (start_y P (Some (start P)))) qstar D).
  { exists [- P; -1; 0; -1]. do 2 (split; [reflexivity|]). intros s a Hs Ha. exists (mk 0 (- P) (-1) 0 (-1) s a). rewrite (tab_call (@table1_tabular 2 2)) by (auto; reflexivity). destruct s as [|[|s]]; [| |lia]; (destruct a as [|[|a]]; [| |lia]); (split; [reflexivity|]); unfold mk; cbn; apply Rabs_le; lra. }
  split; [exact W|]. split; [exact W|]. split; [apply inside_within in W; eapply inside_ext; [exact W|..]; intros s a Hs Ha; destruct a; cbn; lra|].
  split; [apply (@round_d_ok (1/4) Nat.eqb); [lia|lia|discriminate]|]. split; [apply (@round_c_ok (1/4) Nat.eqb); lia|]. split.
  - intros o Io. cbn [In] in Io. repeat (destruct Io as [<-|Io]; [apply row_ok; lia|]). destruct Io.
  - cbn [y_targ start_y]. split.
    + intros s a Hs Ha. exists (YUpdate (row_of (1/4) s a)). split; [|apply row_visits]. destruct s as [|[|s]]; [| |lia]; (destruct a as [|[|a]]; [| |lia]); cbn; tauto.
    + intros o Io. cbn [In] in Io. repeat (destruct Io as [<-|Io]; [eexists; reflexivity|]). destruct Io.
Qed.
(** Two learners with different target networks: the greedy action of the first is worth less according to the second. *)
Example C123_clipped_update_ex : least_value 2 [qstar 0; mk 0 (-3) (-1) 0 0 0%nat] (-3).
Proof.
  assert (U1 : unique_max 2 (qstar 0) 0) by (split; [lia|]; intros [|[|c]] Hc N; try lia; cbn; lra). assert (U2 : unique_max 2 (mk 0 (-3) (-1) 0 0 0%nat) 1) by (split; [lia|]; intros [|[|c]] Hc N; try lia; unfold mk; cbn; lra). split.
  - exists (qstar 0), (mk 0 (-3) (-1) 0 0 0%nat). split; [now left|]. split; [right; now left|]. exact (@avg_of_unique 2 (qstar 0) (mk 0 (-3) (-1) 0 0 0%nat) 0 U1).
  - intros h h' x [<-|[<-|[]]] [<-|[<-|[]]] G.
    + rewrite (greedy_avg_unique G (avg_of_unique _ U1)). cbn. lra.
    + rewrite (greedy_avg_unique G (avg_of_unique _ U1)). unfold mk. cbn. lra.
    + rewrite (greedy_avg_unique G (avg_of_unique _ U2)). cbn. lra.
    + rewrite (greedy_avg_unique G (avg_of_unique _ U2)). unfold mk. cbn. lra.
Qed.
(** C123: for every discount factor between 1/2 and 1, the bound 1/2 above cannot be raised: in an environment with two states (action 0 leads
    to the other state for free, action 1 stays and costs 1), with learning rate 1, exact transitions, batches of one row, and rounds that
    update every pair and then copy the parameters to the target network, double Q-learning runs through the same tables for ever, and after
    every number of rounds the greedy action of one of the states is the wrong one.  (QLearning converges with these very rounds, C103.) *)
Theorem C123_double_cycle_refuted : forall gamma, 1/2 < gamma < 1 -> exists dyn q grads y t (rounds : nat -> list yop), closed 2 2 dyn /\ bellman 2 2 dyn gamma (by_max 2) q /\ (forall s, q s 1%nat <= q s 0%nat - 1) /\
  differentiates 2 2 dyn gamma (table1 2) (target_double 2 (table1 2)) mse grads /\ sgd_learner 1 Nat.eqb y /\ y_targ y = Some t /\ (forall k, one_round 2 2 dyn gamma 1 1 1 1 y (rounds k)) /\
  forall k, exists y' th s x0 x1, yrun 2 (table1 2) (target_double 2 (table1 2)) mse grads Nat.eqb y (concat (map rounds (seq 0 k))) = (y', Ok tt) /\ q_params y' = Node [0%nat] [Node [0%nat] [Leaf th]] /\ (s < 2)%nat /\
    q_call_a (Some 2%nat) (one_hot 2) (fun x => x) (table1 2 th) s 0 = Ok x0 /\ q_call_a (Some 2%nat) (one_hot 2) (fun x => x) (table1 2 th) s 1 = Ok x1 /\ x0 < x1 /\ x0 < q s 0%nat - 1.
Proof.
  intros gamma Hg. destruct (cost_big Hg) as (n & Hn & HP). set (P := gamma * cost gamma n) in *. exists swap, qstar, gd, (start_y P (Some (start P))), (start P), (fun j => round_d gamma n (side j)).
  split; [exact swap_closed|]. split; [apply swap_bellman|]. split; [intros s; cbn; lra|]. split; [apply gd_ok|]. pose proof (start_st P) as S0. split; [exact (proj1 S0)|]. split; [reflexivity|]. split; [intros k; apply (@round_d_ok gamma Nat.eqb n (side k) _ (side_lt k) Hn); discriminate|].
  intros k. destruct (@cycles_d gamma Nat.eqb Hg n k _ Hn HP S0) as (y' & R & (_ & _ & th & _ & Q & _ & [L H] & _)). pose proof (side_lt k) as SK. exists y', th, (side k), (- P), (-1). split; auto. split; auto. split; auto.
  rewrite !(tab_call (@table1_tabular 2 2)) by (auto; lia). rewrite !H by (auto; lia). unfold mk. rewrite Nat.eqb_refl. repeat split; cbn; fold P; lra.
Qed.
Print Assumptions C123_double_cycle_refuted.
(** The same with two learners and the clipped targets. *)
Theorem C123_clipped_cycle_refuted : forall gamma, 1/2 < gamma < 1 -> exists dyn q cgrads ys (rounds : nat -> list cop), closed 2 2 dyn /\ bellman 2 2 dyn gamma (by_max 2) q /\ (forall s, q s 1%nat <= q s 0%nat - 1) /\
  shared_differentiates 2 2 dyn gamma 2 (table1 2) mse cgrads /\ sgd_learners 2 1 Nat.eqb ys /\ (forall k, c_round 2 2 dyn gamma 2 1 1 1 1 (rounds k)) /\
  forall k, exists ys' s, crun 2 (table1 2) mse cgrads Nat.eqb ys (concat (map rounds (seq 0 k))) = (ys', Ok tt) /\ length ys' = 2%nat /\ (s < 2)%nat /\
    forall y, In y ys' -> exists th x0 x1, q_params y = Node [0%nat] [Node [0%nat] [Leaf th]] /\ q_call_a (Some 2%nat) (one_hot 2) (fun x => x) (table1 2 th) s 0 = Ok x0 /\ q_call_a (Some 2%nat) (one_hot 2) (fun x => x) (table1 2 th) s 1 = Ok x1 /\ x0 < x1 /\ x0 < q s 0%nat - 1.
Proof.
  intros gamma Hg. destruct (cost_big Hg) as (n & Hn & HP). set (P := gamma * cost gamma n) in *. exists swap, qstar, gc, [start_y P (Some (start P)); start_y P (Some (start P))], (fun j => round_c gamma n (side j)).
  split; [exact swap_closed|]. split; [apply swap_bellman|]. split; [intros s; cbn; lra|]. split; [apply gc_ok|]. pose proof (start_st P) as S0. split; [split; [reflexivity|]; intros y [<-|[<-|[]]]; (split; [exact (proj1 S0)|discriminate])|]. split; [intros k; exact (@round_c_ok gamma Nat.eqb n (side k) (side_lt k))|].
  intros k. destruct (@cycles_c gamma Nat.eqb Hg n k [start_y P (Some (start P)); start_y P (Some (start P))] HP) as (ys' & R & (y1 & y2 & -> & S1 & S2)); [eexists _, _; split; [reflexivity|auto]|]. pose proof (side_lt k) as SK. exists [y1; y2], (side k). split; auto. split; auto. split; auto.
  assert (X : forall y, st Nat.eqb y (mk (side k) (- P) (-1) 0 (-1)) (mk (side k) (- P) (-1) 0 (-1)) -> exists th x0 x1, q_params y = Node [0%nat] [Node [0%nat] [Leaf th]] /\ q_call_a (Some 2%nat) (one_hot 2) (fun x => x) (table1 2 th) (side k) 0 = Ok x0 /\ q_call_a (Some 2%nat) (one_hot 2) (fun x => x) (table1 2 th) (side k) 1 = Ok x1 /\ x0 < x1 /\ x0 < qstar (side k) 0%nat - 1).
  { intros y (_ & _ & th & _ & Q & _ & [L H] & _). exists th, (- P), (-1). split; auto. rewrite !(tab_call (@table1_tabular 2 2)) by (auto; lia). rewrite !H by (auto; lia). unfold mk. rewrite Nat.eqb_refl. repeat split; cbn; fold P; lra. }
  intros y [<-|[<-|[]]]; auto.
Qed.
Print Assumptions C123_clipped_cycle_refuted.
