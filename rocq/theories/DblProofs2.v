From Coq Require Import List Lia Bool Arith Reals Lra.
From Verif Require Import PyCommon CommonProofs UtilsModel UtilsSpec UtilsProofs2 UtilsProofs3 WrappersProofs DistModel DistSpec DistProofs DistProofs2 DistProofs3 LossModel LossSpec LossProofs QModel QProofs QProps TDModel TDSpec TDProofs TDProofs2 TDProofs3 TDProofs4 CoreModel CoreSpec CoreProofs LearnModel LearnSpec LearnProofs LearnProofs2 LearnProofs3 LearnProofs4 LearnProofs5 LearnProofs6 LearnProofs7 NoiseSpec NoiseProofs NoiseProofs2 NoiseProofs3 DblModel DblSpec DblProofs.
Import ListNotations.
Set Implicit Arguments.
Local Open Scope R_scope.

(** * Averages over greedy actions *)
Definition best (n : nat) (h : nat -> R) (c : nat) : Prop := (c < n)%nat /\ forall d, (d < n)%nat -> h d <= h c.
Lemma avg_extremes : forall n h h' x, greedy_avg n h h' x -> exists c d, best n h c /\ best n h d /\ h' c <= x <= h' d.
Proof.
  intros n h h' x (M & _ & NE & HM & ->).
  assert (Z : forall M : list nat, M <> [] -> exists c d, In c M /\ In d M /\ forall a, In a M -> h' c <= h' a <= h' d).
  { clear. induction M as [|a M IH]; intros H; [congruence|]. destruct M as [|b M]; [exists a, a; split; [now left|]; split; [now left|]; intros x [<-|[]]; lra|]. destruct IH as (c & d & Ic & Id & U); [discriminate|].
    destruct (Rle_dec (h' a) (h' c)), (Rle_dec (h' a) (h' d)).
    - exists a, d. split; [now left|]. split; [now right|]. intros x [<-|Ix]; [lra|]. specialize (U x Ix). lra.
    - exists a, a. split; [now left|]. split; [now left|]. intros x [<-|Ix]; [lra|]. specialize (U x Ix). lra.
    - exists c, d. split; [now right|]. split; [now right|]. intros x [<-|Ix]; [lra|]. specialize (U x Ix). lra.
    - exists c, a. split; [now right|]. split; [now left|]. intros x [<-|Ix]; [lra|]. specialize (U x Ix). lra. }
  destruct (Z M NE) as (c & d & Ic & Id & U). exists c, d. split; [now apply HM|]. split; [now apply HM|].
  assert (B := @total_bounds (map h' M) (h' c) (h' d)). rewrite map_length in B. unfold mean. rewrite map_length. assert (P : 0 < INR (length M)) by (apply lt_0_INR; destruct M; [congruence|cbn; lia]).
  destruct B as [B1 B2]; [intros y Hy; apply in_map_iff in Hy; destruct Hy as (a & <- & Ia); auto|].
  split; apply (Rmult_le_reg_r (INR (length M))); auto; unfold Rdiv; rewrite Rmult_assoc, Rinv_l, Rmult_1_r by lra; auto.
Qed.

Section Boot.
Variables nS nA : nat.
Hypothesis HA : (1 <= nA)%nat.
Variable net : list R -> qfun nat R.
Hypothesis T : tabular nS nA net.
Notation tq := (tq nA).
(** What is needed about a bootstrap value: some table at a greedy action of some table is at most the value; the value is at most an
    entry of some table. *)
Definition loose (tabs : list R -> Prop) (s : nat) (x : R) : Prop :=
  exists h h' h'' c d, tabs h /\ tabs h' /\ tabs h'' /\ best nA (tq h s) c /\ tq h' s c <= x /\ (d < nA)%nat /\ x <= tq h'' s d.
Lemma double_boot : forall th targ b, length th = (nS * nA)%nat -> length targ = (nS * nA)%nat -> well_formed b -> (forall s, In s (tb_Snext b) -> (s < nS)%nat) ->
  exists out, target_double nA net th targ b = Ok out /\ bootstrapped (fun x => x) (fun x => x) b (fun _ s x => greedy_avg nA (tq targ s) (tq th s) x) out.
Proof.
  intros th targ b L Lt WF Hs. destruct (T _ L) as [W Q]. destruct (T _ Lt) as [Wt Qt]. unfold target_double, double_q. rewrite (@q_learning_eval nat nA) by auto. apply finish_rows; auto; [now rewrite map_length|]. intros k s Hk. rewrite (nth_map_error _ _ _ Hk). assert (In s (tb_Snext b)) by (eapply nth_error_In; eauto). rewrite (tab_qvals HA T) by auto.
  rewrite Q by (auto; rewrite greedy_length, map_length, seq_length; auto). now apply greedy_is_avg.
Qed.
Lemma double_loose : forall th targ s x, greedy_avg nA (tq targ s) (tq th s) x -> loose (fun t => t = th \/ t = targ) s x.
Proof. intros th targ s x G. destruct (avg_extremes G) as (c & d & Bc & Bd & E1 & E2). exists targ, th, th, c, d. repeat (split; auto). apply Bd. Qed.
Definition least_pair (targs : list (list R)) (s : nat) (m : R) : Prop :=
  (exists ti tj, In ti targs /\ In tj targs /\ greedy_avg nA (tq ti s) (tq tj s) m) /\ forall ti tj x, In ti targs -> In tj targs -> greedy_avg nA (tq ti s) (tq tj s) x -> m <= x.
Lemma clipped_boot : forall targs b, (2 <= length targs)%nat -> (forall t, In t targs -> length t = (nS * nA)%nat) -> well_formed b -> (forall s, In s (tb_Snext b) -> (s < nS)%nat) ->
  exists out, target_clipped nA net targs b = Ok out /\ bootstrapped (fun x => x) (fun x => x) b (fun _ s x => least_pair targs s x) out.
Proof.
  intros targs b L2 HL WF Hs. unfold target_clipped, clipped_double_q. rewrite map_length. destruct (Nat.ltb_spec (length targs) 2); [lia|].
  set (qs := map (fun t => (net t, fun x : R => x)) targs). assert (W : forall q, In q qs -> width nA (fst q)). { intros q Iq. apply in_map_iff in Iq. destruct Iq as (t & <- & It). cbn. now apply (T t); auto. }
  rewrite (@clipped_pairs_ok nA HA nat) by auto. cbn [bind]. unfold clipped_finish.
  change (exists out, finish (fun x => x) (fun x => x) b (map (fun k => rowmin (pair_row (pairs nA qs (tb_Snext b)) k)) (seq 0 (length (tb_Snext b)))) = Ok out /\ bootstrapped (fun x => x) (fun x => x) b (fun _ s x => least_pair targs s x) out).
  apply finish_rows; auto; [now rewrite map_length, seq_length|]. intros k s Hk. assert (K : (k < length (tb_Snext b))%nat) by (apply nth_error_Some; congruence). assert (Is : In s (tb_Snext b)) by (eapply nth_error_In; eauto). specialize (Hs s Is).
  rewrite (@nth_map_any _ _ _ (seq 0 (length (tb_Snext b))) k 0 0%nat) by (now rewrite seq_length). rewrite seq_nth by auto. cbn [Nat.add].
  assert (RN : pair_row (pairs nA qs (tb_Snext b)) k <> []). { intros E. apply (f_equal (@length R)) in E. unfold pair_row in E. rewrite map_length, pairs_length in E. unfold qs in E. rewrite map_length in E. cbn in E. nia. }
  assert (V : forall ti tj, In ti targs -> In tj targs -> greedy_avg nA (tq ti s) (tq tj s) (qat (net tj) s (greedy_mix (map (qval nA (net ti) s) (seq 0 nA))))).
  { intros ti tj Ii Ij. rewrite (tab_qvals HA T) by auto. destruct (T tj) as [Wj Qj]; auto. rewrite Qj by (auto; rewrite greedy_length, map_length, seq_length; auto). now apply greedy_is_avg. }
  destruct (rowmin_spec RN) as [I U]. split.
  - apply (@pair_row_in nA nat qs (tb_Snext b) k s _ Hk) in I. destruct I as (qi & qj & Ii & Ij & E). apply in_map_iff in Ii. destruct Ii as (ti & <- & Ii). apply in_map_iff in Ij. destruct Ij as (tj & <- & Ij). cbn [fst snd] in E. exists ti, tj. split; auto. split; auto. rewrite E. now apply V.
  - intros ti tj x Ii Ij G. rewrite (greedy_avg_unique G (V ti tj Ii Ij)). apply U. apply (@pair_row_in nA nat qs (tb_Snext b) k s _ Hk). exists (net ti, fun x => x), (net tj, fun x => x). split; [apply in_map_iff; eauto|]. split; [apply in_map_iff; eauto|reflexivity].
Qed.
Lemma clipped_loose : forall targs s x, least_pair targs s x -> loose (fun t => In t targs) s x.
Proof.
  intros targs s x [(ti & tj & Ii & Ij & G) U]. destruct (avg_extremes G) as (c & d & Bc & Bd & E1 & _).
  pose proof (@greedy_is_avg nA HA (tq ti s) (tq ti s)) as G2. pose proof (U ti ti _ Ii Ii G2) as LE. destruct (avg_extremes G2) as (_ & d2 & _ & [Hd2 _] & _ & E2). exists ti, tj, ti, c, d2. do 3 (split; auto). split; auto. split; auto. split; auto. lra.
Qed.
End Boot.

(** * One update *)
Section Mix.
Variables nS nA : nat.
Hypothesis HA : (1 <= nA)%nat.
Variable net : list R -> qfun nat R.
Hypothesis T : tabular nS nA net.
Variable dyn : nat -> nat -> nat * R * bool.
Hypothesis CL : closed nS nA dyn.
Variable gamma : R.
Variable target : list R -> list R -> tbatch nat -> outcome (list R).
Variables (loss : list R -> list R -> option (list R) -> outcome (option R)) (grads : list R -> list R -> fbatch nat -> list R) (sub : nat -> nat -> bool).
Variables (M cl lr wl : R) (B : nat).
Hypothesis PL : pulls loss M cl.
Hypothesis Hlr : 0 < lr.
Hypothesis Hwl : 0 < wl.
Notation tq := (tq nA).
Lemma genuine_boot : forall rows b (boot : nat -> nat -> R -> Prop) G, genuine nS nA dyn gamma rows b -> bootstrapped (fun x => x) (fun x => x) (fb_t b) boot G ->
  length G = length rows /\ forall i s a, nth_error rows i = Some (s, a) -> (s < nS)%nat /\ (a < nA)%nat /\ exists s' x, (s' < nS)%nat /\ boot i s' x /\ nth i G 0 = reward dyn s a + (if ends dyn s a then 0 else gamma * x) /\ (ends dyn s a = false -> s' = next dyn s a).
Proof.
  intros rows b boot G (NE & HS & HAc & HW & L1 & L2 & L3 & GE) [LG BG]. split; [lia|]. intros i s a Hi. assert (I : (i < length rows)%nat) by (apply nth_error_Some; congruence).
  destruct (nth_error (tb_Snext (fb_t b)) i) as [s'|] eqn:N; [|apply nth_error_None in N; lia]. destruct (GE _ _ _ _ Hi N) as (Hs & Ha & Hs' & HR & HE). destruct (BG _ _ N) as (x & X1 & X2). split; auto. split; auto. exists s', x. split; auto. split; auto. rewrite X2, HR. destruct (ends dyn s a); [rewrite HE; split; [lra|discriminate]|]. destruct HE as [-> ->]. auto.
Qed.
Lemma genuine_states : forall rows b, genuine nS nA dyn gamma rows b -> well_formed (fb_t b) /\ forall s, In s (tb_Snext (fb_t b)) -> (s < nS)%nat.
Proof.
  intros rows b (NE & HS & HAc & HW & L1 & L2 & L3 & GE). split; [split; lia|]. intros s Hs. apply In_nth_error in Hs. destruct Hs as [i Hi]. assert (i < length rows)%nat by (rewrite <- L3; apply nth_error_Some; congruence). destruct (nth_error rows i) as [[s0 a0]|] eqn:R0; [|apply nth_error_None in R0; lia]. now destruct (GE _ _ _ _ R0 Hi) as (_ & _ & ? & _).
Qed.
Lemma mix_update : forall y th targ rows b G (lo hi : nat -> nat -> R), sgd_learner lr sub y -> q_params y = wrap th -> length th = (nS * nA)%nat -> targ_params y = wrap targ -> genuine nS nA dyn gamma rows b -> weights_fit lr wl b -> (length rows <= B)%nat ->
  gradient (fun p => loss_value (q_loss (Some nA) net target loss th targ b p)) th (grads th targ b) -> target th targ (fb_t b) = Ok G -> length G = length rows ->
  (forall i s a, nth_error rows i = Some (s, a) -> lo s a <= nth i G 0 <= hi s a /\ Rabs (nth i G 0 - tq th s a) <= M) ->
  exists y' th', ystep nA net target loss grads sub y (YUpdate b) = (y', Ok tt) /\ sgd_learner lr sub y' /\ y_targ y' = y_targ y /\ q_params y' = wrap th' /\ length th' = (nS * nA)%nat /\
  forall s a, (s < nS)%nat -> (a < nA)%nat -> exists c, 0 <= c <= 1 /\ (visits nA (YUpdate b) s a -> beta cl lr wl B <= c) /\ (1 - c) * tq th s a + c * lo s a <= tq th' s a <= (1 - c) * tq th s a + c * hi s a.
Proof.
  intros y th targ rows b G lo hi SG Q L P GEN WF LB GD TG LG BD. destruct (pulls_slope PL) as (Hcl & l & l' & EL & Dl & SL). pose proof (genuine_rows HA GEN) as HR. destruct (GEN) as (NE & HS & HAc & HW & L1 & L2 & L3 & GE). rewrite EL in GD.
  destruct (@ystep_update nA net target loss grads sub lr y b th targ SG Q P) as (y' & Y1 & Y2 & Y3 & Y4).
  { exact (proj1 GD). }
  { rewrite EL. exact (@loss_ok nS nA net T l target rows b th targ G th HS HAc HW LG NE HR TG L). }
  exists y'. eexists. split; [exact Y1|]. split; [auto|]. split; [auto|]. split; [exact Y4|]. split; [now rewrite map_length, seq_length|].
  intros s a Hs Ha. assert (X := index_lt Hs Ha).
  assert (EX : tq (map (fun i => nth i th 0 - lr * nth i (grads th targ b) 0) (seq 0 (length th))) s a = tq th s a - lr * tq (grads th targ b) s a).
  { unfold LearnProofs.tq. rewrite (@nth_map_any _ _ _ (seq 0 (length th)) _ 0 0%nat) by (rewrite seq_length; lia). rewrite seq_nth by lia. reflexivity. }
  rewrite EX. rewrite (@table_gradient_cell nS nA HA net T l l' Dl target rows b th targ G th HS HAc HW LG NE HR TG L _ s a GD Hs Ha). unfold cell_grad.
  assert (WB : forall i, (i < length rows)%nat -> wl <= nth i (clip_w (fb_W b)) 0 /\ lr * nth i (clip_w (fb_W b)) 0 <= 1). { intros i Hi. rewrite clip_w_nth by lia. rewrite wclip. apply WF. apply nth_In. lia. }
  assert (NI : forall i, (i < length rows)%nat -> same_pair (nth i rows (0, 0)%nat) (s, a) = true -> nth_error rows i = Some (s, a)). { intros i Hi Si. apply same_pair_spec in Si. rewrite <- Si. now apply nth_error_nth'. }
  destruct (@cell_mix l' M cl lr wl B (length rows) (fun i => nth i (clip_w (fb_W b)) 0) (fun i => nth i G 0) (fun i => same_pair (nth i rows (0,0)%nat) (s, a)) (tq th s a) SL Hcl Hlr Hwl) as (k & K1 & K2 & K3 & K4 & K5); auto.
  - destruct rows; [congruence|cbn; lia].
  - intros i Hi Si. apply (BD i s a). now apply NI.
  - set (bt := total (map k (seq 0 (length rows)))) in *. exists bt. split; [exact K3|]. split.
    + intros (i & V1 & V2). rewrite HS in V1. rewrite HAc in V2. assert (Hi : (i < length rows)%nat) by (rewrite <- (map_length (@fst nat nat)); apply nth_error_Some; congruence). apply (K4 i); auto. apply same_pair_spec. destruct (nth i rows (0, 0)%nat) as [s1 a1] eqn:N.
      assert (NN : nth_error rows i = Some (s1, a1)) by (rewrite <- N; now apply nth_error_nth'). rewrite (map_nth_error _ _ _ NN) in V1. rewrite (map_nth_error _ _ _ NN) in V2. cbn in V1, V2. injection V1 as ->. injection V2 as V2. destruct (HR _ _ (nth_error_In _ _ NN)). f_equal. eapply one_hot_inj; eauto.
    + rewrite K5.
      assert (U : total (map (fun i => k i * nth i G 0) (seq 0 (length rows))) <= hi s a * bt). { unfold bt. rewrite <- total_scal. apply total_le. intros i Hi. apply in_seq in Hi. destruct (same_pair (nth i rows (0,0)%nat) (s, a)) eqn:Si; [|rewrite (K2 i Si); lra]. destruct (BD i s a (NI i ltac:(lia) Si)) as [GB _]. specialize (K1 i ltac:(lia)). rewrite Rmult_comm. apply Rmult_le_compat_r; lra. }
      assert (W : lo s a * bt <= total (map (fun i => k i * nth i G 0) (seq 0 (length rows)))). { unfold bt. rewrite <- total_scal. apply total_le. intros i Hi. apply in_seq in Hi. destruct (same_pair (nth i rows (0,0)%nat) (s, a)) eqn:Si; [|rewrite (K2 i Si); lra]. destruct (BD i s a (NI i ltac:(lia) Si)) as [GB _]. specialize (K1 i ltac:(lia)). rewrite (Rmult_comm (k i)). apply Rmult_le_compat_r; lra. }
      lra.
Qed.
End Mix.
