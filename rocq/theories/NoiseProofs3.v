From Coq Require Import List Lia Bool Arith Reals Lra.
From Verif Require Import PyCommon CommonProofs UtilsModel UtilsSpec UtilsProofs2 UtilsProofs3 WrappersProofs DistModel DistSpec DistProofs DistProofs2 DistProofs3 LossModel LossSpec LossProofs QModel QProofs QProps TDModel TDSpec TDProofs TDProofs2 TDProofs3 TDProofs4 CoreModel CoreSpec CoreProofs LearnModel LearnSpec LearnProofs LearnProofs2 LearnProofs3 LearnProofs4 LearnProofs5 LearnProofs6 LearnProofs7 NoiseSpec NoiseProofs NoiseProofs2.
Import ListNotations.
Set Implicit Arguments.
Local Open Scope R_scope.

(** * One update *)
Lemma cell_mix : forall l' M cl lr wl B n (w G : nat -> R) (sel : nat -> bool) x, slope l' M cl -> 0 < cl <= 1 -> 0 < lr -> 0 < wl -> (1 <= n)%nat ->
  (forall i, (i < n)%nat -> wl <= w i /\ lr * w i <= 1) -> (forall i, (i < n)%nat -> sel i = true -> Rabs (G i - x) <= M) ->
  exists b : nat -> R, let bt := total (map b (seq 0 n)) in (forall i, (i < n)%nat -> 0 <= b i) /\ (forall i, sel i = false -> b i = 0) /\ 0 <= bt <= 1 /\ (forall i, (i < n)%nat -> (n <= B)%nat -> sel i = true -> beta cl lr wl B <= bt) /\
  x - lr * (total (map (fun i => if sel i then w i * l' (G i) x else 0) (seq 0 n)) / INR n) = (1 - bt) * x + total (map (fun i => b i * G i) (seq 0 n)).
Proof.
  intros l' M cl lr wl B n w G sel x SL Hcl Hlr Hwl Hn Hw HG. assert (Pn : 0 < INR n) by (apply lt_0_INR; lia). assert (Pi : 0 < / INR n) by now apply Rinv_0_lt_compat.
  assert (C : exists c : nat -> R, forall i, (i < n)%nat -> sel i = true -> cl <= c i <= 1 /\ l' (G i) x = - (c i * (G i - x))).
  { assert (X : forall m, (m <= n)%nat -> exists c : nat -> R, forall i, (i < m)%nat -> sel i = true -> cl <= c i <= 1 /\ l' (G i) x = - (c i * (G i - x))).
    { induction m as [|m IH]; intros Hm; [exists (fun _ => 0); intros; lia|]. destruct IH as [c Hc]; [lia|]. destruct (sel m) eqn:Em.
      - destruct (SL (G m) x) as (cm & C1 & C2); [apply HG; auto; lia|]. exists (fun i => if Nat.eqb i m then cm else c i). intros i Hi Si. destruct (Nat.eqb_spec i m) as [->|]; [auto|apply Hc; auto; lia].
      - exists c. intros i Hi Si. apply Hc; auto. assert (i <> m) by congruence. lia. }
    apply X. lia. }
  destruct C as [c Hc]. set (b := fun i => if sel i then lr * w i * c i * / INR n else 0). exists b. cbv zeta. set (bt := total (map b (seq 0 n))).
  assert (Hb : forall i, (i < n)%nat -> 0 <= b i <= / INR n). { intros i Hi. unfold b. destruct (sel i) eqn:Si; [|lra]. destruct (Hw i Hi), (Hc i Hi Si) as [[? ?] _]. assert (0 <= lr * w i * c i <= 1) by (split; [apply Rmult_le_pos; nra|nra]). split; [apply Rmult_le_pos; lra|]. rewrite <- (Rmult_1_l (/ INR n)) at 2. apply Rmult_le_compat_r; lra. }
  split; [intros i Hi; exact (proj1 (Hb i Hi))|]. split; [intros i Si; unfold b; now rewrite Si|]. split; [|split].
  - assert (TB := @total_bounds (map b (seq 0 n)) 0 (/ INR n)). rewrite map_length, seq_length in TB. destruct TB as [T1 T2]; [intros y Hy; apply in_map_iff in Hy; destruct Hy as (i & <- & Hi); apply in_seq in Hi; apply Hb; lia|]. fold bt in T1, T2. rewrite Rinv_l in T2 by lra. lra.
  - intros i Hi HB Si. apply Rle_trans with (b i).
    + unfold b, beta. rewrite Si. destruct (Hw i Hi), (Hc i Hi Si) as [[? ?] _]. unfold Rdiv. assert (PB : 0 < INR B) by (apply lt_0_INR; lia). assert (/ INR B <= / INR n) by (apply Rinv_le_contravar; auto; apply le_INR; lia). assert (0 < / INR B) by now apply Rinv_0_lt_compat.
      apply Rmult_le_compat; try lra; [apply Rmult_le_pos; nra|]. apply Rmult_le_compat; try nra.
    + unfold bt. apply (@total_in_le _ b (seq 0 n) i); [intros j Hj; apply in_seq in Hj; apply Hb; lia|apply in_seq; lia].
  - assert (Z : - lr * (total (map (fun i => if sel i then w i * l' (G i) x else 0) (seq 0 n)) / INR n) = total (map (fun i => b i * G i - x * b i) (seq 0 n))).
    { unfold Rdiv. rewrite (Rmult_comm (total _)), <- Rmult_assoc, <- total_scal. apply total_ext. intros i Hi. apply in_seq in Hi. unfold b. destruct (sel i) eqn:Si; [|lra]. destruct (Hc i ltac:(lia) Si) as [_ ->]. ring. }
    rewrite total_minus, total_scal in Z. fold bt in Z. lra.
Qed.

Section Update.
Variables nS nA nW : nat.
Hypothesis HA : (1 <= nA)%nat.
Variable net : list R -> qfun nat R.
Hypothesis T : tabular nS nA net.
Variable dyn : nat -> nat -> nat -> nat * R * bool.
Hypothesis CL : all_closed nS nA nW dyn.
Variable gamma : R.
Variables (target : list R -> list R -> tbatch nat -> outcome (list R)) (val : valuation).
Hypothesis ST : sound_target nS nA target val.
Variable v : nat -> (nat -> R) -> R.
Hypothesis HV : forall s h, val s h (v s h).
Variables (l l' : R -> R -> R).
Hypothesis Dl : forall y h, derivable_pt_lim (l y) h (l' y h).
Variables (grads : list R -> list R -> fbatch nat -> list R) (sub : nat -> nat -> bool) (lr : R).
Hypothesis GR : noisy_differentiates nS nA nW dyn gamma net target (zip_loss l) grads.
Notation tq := (tq nA).
Lemma sampled_rows : forall rows ws b, sampled nS nA nW dyn gamma rows ws b -> forall i s a, nth_error rows i = Some (s, a) -> (nth i ws 0%nat < nW)%nat /\ (s < nS)%nat /\ (a < nA)%nat.
Proof.
  intros rows ws b (NE & HS & HAc & HW & L1 & L2 & L3 & L4 & GE) i s a I. assert (i < length rows)%nat by (apply nth_error_Some; congruence). destruct (nth_error (tb_Snext (fb_t b)) i) as [s'|] eqn:N; [|apply nth_error_None in N; lia]. destruct (GE _ _ _ _ I N) as (? & ? & ? & _). auto.
Qed.
Lemma sampled_in : forall rows ws b, sampled nS nA nW dyn gamma rows ws b -> forall s a, In (s, a) rows -> (s < nS)%nat /\ (a < nA)%nat.
Proof. intros rows ws b SA s a I. apply In_nth_error in I. destruct I as [i I]. destruct (sampled_rows SA _ I) as (_ & ? & ?). auto. Qed.
Lemma sampled_targets : forall rows ws b th0 targ, sampled nS nA nW dyn gamma rows ws b -> length targ = (nS * nA)%nat -> exists G, target th0 targ (fb_t b) = Ok G /\ length G = length rows /\
  forall i s a, nth_error rows i = Some (s, a) -> worth dyn gamma val (tq targ) (nth i ws 0%nat) s a (nth i G 0).
Proof.
  intros rows ws b th0 targ (NE & HS & HAc & HW & L1 & L2 & L3 & L4 & GEN) L.
  destruct (@ST th0 targ (fb_t b) L) as (G & TG & LG & BG); [split; lia| |].
  { intros s Hs. apply In_nth_error in Hs. destruct Hs as [i Hi]. assert (i < length rows)%nat by (rewrite <- L3; apply nth_error_Some; congruence). destruct (nth_error rows i) as [[s0 a0]|] eqn:R0; [|apply nth_error_None in R0; lia]. now destruct (GEN _ _ _ _ R0 Hi) as (_ & _ & _ & ? & _). }
  exists G. split; auto. split; [lia|]. intros i s a Hi. assert (I : (i < length rows)%nat) by (apply nth_error_Some; congruence).
  destruct (nth_error (tb_Snext (fb_t b)) i) as [s'|] eqn:N; [|apply nth_error_None in N; lia]. destruct (GEN _ _ _ _ Hi N) as (Hw & Hs & Ha & Hs' & HR & HE). destruct (BG _ _ N) as (x & X1 & X2). unfold worth. rewrite X2, HR. destruct (ends (dyn (nth i ws 0%nat)) s a).
  - exists (v (next (dyn (nth i ws 0%nat)) s a) (tq targ (next (dyn (nth i ws 0%nat)) s a))). split; [apply HV|]. rewrite HE. lra.
  - destruct HE as [-> ->]. exists x. split; auto.
Qed.
Lemma sampled_update : forall y th targ rows ws b, sgd_learner lr sub y -> q_params y = wrap th -> length th = (nS * nA)%nat -> targ_params y = wrap targ -> length targ = (nS * nA)%nat -> sampled nS nA nW dyn gamma rows ws b ->
  exists y' th' G, ystep nA net target (zip_loss l) grads sub y (YUpdate b) = (y', Ok tt) /\ sgd_learner lr sub y' /\ y_targ y' = y_targ y /\ q_params y' = wrap th' /\ length th' = (nS * nA)%nat /\ length G = length rows /\
  (forall i s a, nth_error rows i = Some (s, a) -> worth dyn gamma val (tq targ) (nth i ws 0%nat) s a (nth i G 0)) /\
  forall s a, (s < nS)%nat -> (a < nA)%nat -> tq th' s a = tq th s a - lr * (total (map (fun i => if same_pair (nth i rows (0, 0)%nat) (s, a) then nth i (clip_w (fb_W b)) 0 * l' (nth i G 0) (tq th s a) else 0) (seq 0 (length rows))) / INR (length rows)).
Proof.
  intros y th targ rows ws b SG Q L P Lt SA. destruct (@sampled_targets rows ws b th targ SA Lt) as (G & TG & LG & WG). pose proof (@GR th targ rows ws b L Lt SA) as GD. pose proof (sampled_in SA) as HR. destruct SA as (NE & HS & HAc & HW & L1 & L2 & L3 & L4 & GE).
  destruct (@ystep_update nA net target (zip_loss l) grads sub lr y b th targ SG Q P) as (y' & Y1 & Y2 & Y3 & Y4).
  { exact (proj1 GD). }
  { exact (@loss_ok nS nA net T l target rows b th targ G th HS HAc HW LG NE HR TG L). }
  exists y'. eexists. exists G. split; [exact Y1|]. split; [auto|]. split; [auto|]. split; [exact Y4|]. split; [now rewrite map_length, seq_length|]. split; auto. split; auto.
  intros s a Hs Ha. assert (X := index_lt Hs Ha).
  assert (EX : tq (map (fun i => nth i th 0 - lr * nth i (grads th targ b) 0) (seq 0 (length th))) s a = tq th s a - lr * tq (grads th targ b) s a).
  { unfold LearnProofs.tq. rewrite (@nth_map_any _ _ _ (seq 0 (length th)) _ 0 0%nat) by (rewrite seq_length; lia). rewrite seq_nth by lia. reflexivity. }
  rewrite EX. rewrite (@table_gradient_cell nS nA HA net T l l' Dl target rows b th targ G th HS HAc HW LG NE HR TG L _ s a GD Hs Ha). unfold cell_grad. reflexivity.
Qed.
Lemma sampled_visits : forall rows ws b s a, sampled nS nA nW dyn gamma rows ws b -> (s < nS)%nat -> (a < nA)%nat -> visits nA (YUpdate b) s a -> exists i, (i < length rows)%nat /\ nth_error rows i = Some (s, a).
Proof.
  intros rows ws b s a SA Hs Ha (i & V1 & V2). pose proof (sampled_in SA) as HR. destruct SA as (NE & HS & HAc & _). rewrite HS in V1. rewrite HAc in V2. assert (Hi : (i < length rows)%nat) by (rewrite <- (map_length (@fst nat nat)); apply nth_error_Some; congruence). exists i. split; auto.
  destruct (nth_error rows i) as [[s1 a1]|] eqn:NN; [|apply nth_error_None in NN; lia]. rewrite (map_nth_error _ _ _ NN) in V1. rewrite (map_nth_error _ _ _ NN) in V2. cbn in V1, V2. injection V1 as ->. injection V2 as V2. destruct (HR _ _ (nth_error_In _ _ NN)). do 2 f_equal. eapply one_hot_inj; eauto.
Qed.
End Update.

(** * The values stay between the worst and the best luck *)
Section Between.
Variables nS nA nW : nat.
Hypothesis HA : (1 <= nA)%nat.
Variable net : list R -> qfun nat R.
Hypothesis T : tabular nS nA net.
Variable dyn : nat -> nat -> nat -> nat * R * bool.
Hypothesis CL : all_closed nS nA nW dyn.
Variable gamma : R.
Hypothesis Hg : 0 <= gamma <= 1.
Variables (target : list R -> list R -> tbatch nat -> outcome (list R)) (val : valuation).
Hypothesis ST : sound_target nS nA target val.
Hypothesis OS : one_sided nA val.
Variable v : nat -> (nat -> R) -> R.
Hypothesis HV : forall s h, val s h (v s h).
Variables (loss : list R -> list R -> option (list R) -> outcome (option R)) (grads : list R -> list R -> fbatch nat -> list R) (sub : nat -> nat -> bool).
Variables (D0 M cl lr wl : R) (B : nat).
Hypothesis PL : pulls loss M cl.
Hypothesis GR : noisy_differentiates nS nA nW dyn gamma net target loss grads.
Hypothesis Hlr : 0 < lr.
Hypothesis Hwl : 0 < wl.
Variables lo hi : nat -> nat -> R.
Hypothesis LO : at_least nS nA nW dyn gamma val lo.
Hypothesis HI : at_most nS nA nW dyn gamma val hi.
Hypothesis HM : forall s a, (s < nS)%nat -> (a < nA)%nat -> hi s a - lo s a + (1 + gamma) * D0 <= M.
Notation tq := (tq nA).
Definition dist (s a : nat) (x : R) : R := Rmax 0 (Rmax (x - hi s a) (lo s a - x)).
Lemma dist_le : forall s a x e, dist s a x <= e <-> 0 <= e /\ lo s a - e <= x <= hi s a + e.
Proof.
  intros s a x e. unfold dist. split.
  - intros H. pose proof (Rmax_l 0 (Rmax (x - hi s a) (lo s a - x))). pose proof (Rmax_r 0 (Rmax (x - hi s a) (lo s a - x))). pose proof (Rmax_l (x - hi s a) (lo s a - x)). pose proof (Rmax_r (x - hi s a) (lo s a - x)). lra.
  - intros H. apply Rmax_lub; [lra|]. apply Rmax_lub; lra.
Qed.
Definition tab (p : ptree) : list R := match unwrap p with Some th => th | None => [] end.
Definition is_tab (p : ptree) : Prop := p = wrap (tab p) /\ length (tab p) = (nS * nA)%nat.
Definition err_tab (p : ptree) (s a : nat) : R := dist s a (tq (tab p) s a).
Definition has_targ (y : sys) : bool := match y_targ y with Some _ => true | None => false end.
Definition ok_sys (y : sys) : Prop := sgd_learner lr sub y /\ is_tab (q_params y) /\ is_tab (targ_params y).
Definition op_sync (o : yop) : option R := match o with YUpdate _ => None | YSync tau => Some tau end.
Notation ystep := (ystep nA net target loss grads sub).
Lemma worth_between : forall targ w s a x D, 0 <= D -> (w < nW)%nat -> (s < nS)%nat -> (a < nA)%nat -> (forall s a, (s < nS)%nat -> (a < nA)%nat -> dist s a (tq targ s a) <= D) ->
  worth dyn gamma val (tq targ) w s a x -> lo s a - gamma * D <= x <= hi s a + gamma * D.
Proof.
  intros targ w s a x D HD Hw Hs Ha E (m & X & ->). destruct (LO Hs Ha Hw) as (xl & (ml & Ml & ->) & Ll). destruct (HI Hs Ha Hw) as (xh & (mh & Mh & ->) & Lh). destruct (ends (dyn w) s a); [nra|]. assert (C := CL Hw Hs Ha).
  assert (m <= mh + D). { eapply OS; [|exact X|exact Mh]. intros c Hc. specialize (E _ _ C Hc). apply dist_le in E. lra. }
  assert (ml <= m + D). { eapply OS; [|exact Ml|exact X]. intros c Hc. specialize (E _ _ C Hc). apply dist_le in E. lra. }
  assert (gamma * m <= gamma * (mh + D)) by (apply Rmult_le_compat_l; lra). assert (gamma * ml <= gamma * (m + D)) by (apply Rmult_le_compat_l; lra). lra.
Qed.
Lemma between_update : forall y o D, 0 <= D <= D0 -> ok_sys y -> le nS nA (err_tab (q_params y)) D -> le nS nA (err_tab (targ_params y)) D -> noisy_op nS nA nW dyn gamma lr wl B o -> op_sync o = None ->
  exists y', ystep y o = (y', Ok tt) /\ ok_sys y' /\ has_targ y' = has_targ y /\
  (forall s a, (s < nS)%nat -> (a < nA)%nat -> exists c, 0 <= c <= 1 /\ (visits nA o s a -> beta cl lr wl B <= c) /\ err_tab (q_params y') s a <= (1 - c) * err_tab (q_params y) s a + c * (gamma * D)) /\
  (forall s a, (s < nS)%nat -> (a < nA)%nat -> err_tab (targ_params y') s a <= if has_targ y then err_tab (targ_params y) s a else err_tab (q_params y') s a).
Proof.
  intros y o D HD (SG & [Q L] & [P Lt]) EQ ET OK NS. destruct o as [b|tau]; [|discriminate]. destruct OK as (rows & ws & SA & WF & LB). destruct (pulls_slope PL) as (Hcl & l & l' & EL & Dl & SL). pose proof GR as GR'. rewrite EL in GR'.
  destruct (@sampled_update nS nA nW HA net T dyn gamma target val ST v HV l l' Dl grads sub lr GR' y _ _ rows ws b SG Q L P Lt SA) as (y' & th' & G & Y1 & Y2 & Y3 & Y4 & Y5 & LG & WG & C). rewrite <- EL in Y1.
  exists y'. split; auto.
  assert (TY : tab (q_params y') = th') by (rewrite Y4; reflexivity).
  assert (TP : targ_params y' = if has_targ y then targ_params y else q_params y'). { unfold targ_params, has_targ. rewrite Y3. destruct (y_targ y); reflexivity. }
  split; [split; auto; split; [split; [now rewrite TY|congruence]|rewrite TP; destruct (has_targ y); split; auto; [now rewrite TY|congruence]]|]. split; [unfold has_targ; now rewrite Y3|]. split; [|intros; rewrite TP; destruct (has_targ y); lra].
  intros s a Hs Ha. pose proof (EQ s a Hs Ha) as Es. unfold err_tab in Es.
  assert (GB : forall i, (i < length rows)%nat -> same_pair (nth i rows (0,0)%nat) (s, a) = true -> lo s a - gamma * D <= nth i G 0 <= hi s a + gamma * D).
  { intros i Hi Si. apply same_pair_spec in Si. assert (NI : nth_error rows i = Some (s, a)) by (rewrite <- Si; now apply nth_error_nth'). destruct (sampled_rows HA SA _ NI) as (Hw & _). eapply worth_between; [lra|exact Hw|exact Hs|exact Ha|exact ET|]. now apply WG. }
  assert (WB : forall i, (i < length rows)%nat -> wl <= nth i (clip_w (fb_W b)) 0 /\ lr * nth i (clip_w (fb_W b)) 0 <= 1).
  { intros i Hi. destruct SA as (_ & _ & _ & HW & _). rewrite clip_w_nth by lia. rewrite wclip. apply WF. apply nth_In. lia. }
  destruct (@cell_mix l' M cl lr wl B (length rows) (fun i => nth i (clip_w (fb_W b)) 0) (fun i => nth i G 0) (fun i => same_pair (nth i rows (0,0)%nat) (s, a)) (tq (tab (q_params y)) s a) SL Hcl Hlr Hwl) as (k & K1 & K2 & K3 & K4 & K5); auto.
  - destruct SA as (NE & _). destruct rows; [congruence|cbn; lia].
  - intros i Hi Si. specialize (GB i Hi Si). apply dist_le in Es. specialize (HM Hs Ha). assert (gamma * D <= gamma * D0) by (apply Rmult_le_compat_l; lra). assert (0 <= gamma * D) by (apply Rmult_le_pos; lra). apply Rabs_le. lra.
  - set (bt := total (map k (seq 0 (length rows)))) in *. exists bt. split; [exact K3|]. split.
    + intros V. destruct (sampled_visits HA SA Hs Ha V) as (i & Hi & NI). apply (K4 i Hi LB). apply same_pair_spec. now apply nth_error_nth.
    + unfold err_tab. rewrite TY, (C s a Hs Ha), K5. set (x := tq (tab (q_params y)) s a) in *. set (e := dist s a x). assert (Ee : dist s a x <= e) by (unfold e; lra). apply dist_le in Ee. destruct Ee as (E0 & E1 & E2).
      assert (0 <= gamma * D) by (apply Rmult_le_pos; lra).
      assert (U : total (map (fun i => k i * nth i G 0) (seq 0 (length rows))) <= (hi s a + gamma * D) * bt). { unfold bt. rewrite <- total_scal. apply total_le. intros i Hi. apply in_seq in Hi. destruct (same_pair (nth i rows (0,0)%nat) (s, a)) eqn:Si; [|rewrite (K2 i Si); lra]. specialize (GB i ltac:(lia) Si). specialize (K1 i ltac:(lia)). rewrite Rmult_comm. apply Rmult_le_compat_r; lra. }
      assert (W : (lo s a - gamma * D) * bt <= total (map (fun i => k i * nth i G 0) (seq 0 (length rows)))). { unfold bt. rewrite <- total_scal. apply total_le. intros i Hi. apply in_seq in Hi. destruct (same_pair (nth i rows (0,0)%nat) (s, a)) eqn:Si; [|rewrite (K2 i Si); lra]. specialize (GB i ltac:(lia) Si). specialize (K1 i ltac:(lia)). rewrite (Rmult_comm (k i)). apply Rmult_le_compat_r; lra. }
      assert ((1 - bt) * x <= (1 - bt) * (hi s a + e)) by (apply Rmult_le_compat_l; lra). assert ((1 - bt) * (lo s a - e) <= (1 - bt) * x) by (apply Rmult_le_compat_l; lra).
      apply dist_le. split; [apply Rplus_le_le_0_compat; apply Rmult_le_pos; lra|]. lra.
Qed.
Lemma between_sync : forall y o tau, ok_sys y -> noisy_op nS nA nW dyn gamma lr wl B o -> op_sync o = Some tau -> has_targ y = true ->
  exists y', ystep y o = (y', Ok tt) /\ ok_sys y' /\ has_targ y' = true /\
  forall s a, (s < nS)%nat -> (a < nA)%nat -> err_tab (q_params y') s a <= err_tab (q_params y) s a /\ err_tab (targ_params y') s a <= (1 - tau) * err_tab (targ_params y) s a + tau * err_tab (q_params y) s a.
Proof.
  intros y o tau (SG & [Q L] & [P Lt]) OK Y Ht. destruct o as [b|tau']; [discriminate|]. injection Y as ->. cbn in OK. unfold has_targ in Ht. destruct (y_targ y) as [t|] eqn:E; [|discriminate].
  destruct (@ystep_sync nA net target loss grads sub lr y tau _ _ t SG E Q P) as (y' & t' & Y1 & Y2 & Y3 & Y4 & Y5); [lia|]. exists y'. split; auto.
  assert (T1 : tab (q_params y') = tab (q_params y)) by (rewrite Y4; reflexivity). assert (T2 := f_equal tab Y5). unfold tab in T2 at 2. cbn [unwrap wrap] in T2.
  split; [split; auto; split; split; [now rewrite T1|congruence|rewrite T2; exact Y5|rewrite T2, map_length, seq_length; exact Lt]|]. split; [unfold has_targ; now rewrite Y3|].
  intros s a Hs Ha. assert (XX := index_lt Hs Ha). unfold err_tab. rewrite T1, T2. split; [lra|]. set (e1 := dist s a (tq (tab (targ_params y)) s a)). set (e2 := dist s a (tq (tab (q_params y)) s a)). assert (E1 : dist s a (tq (tab (targ_params y)) s a) <= e1) by (unfold e1; lra). assert (E2 : dist s a (tq (tab (q_params y)) s a) <= e2) by (unfold e2; lra). apply dist_le in E1. apply dist_le in E2.
  apply dist_le. unfold LearnProofs.tq in *. rewrite (@nth_map_any _ _ _ (seq 0 (length (tab (targ_params y)))) _ 0 0%nat) by (rewrite seq_length; lia). rewrite seq_nth by lia. cbn [Nat.add].
  set (z1 := nth (s * nA + a) (tab (targ_params y)) 0) in *. set (z2 := nth (s * nA + a) (tab (q_params y)) 0) in *.
  assert ((1 - tau) * z1 <= (1 - tau) * (hi s a + e1)) by (apply Rmult_le_compat_l; lra). assert (tau * z2 <= tau * (hi s a + e2)) by (apply Rmult_le_compat_l; lra). assert ((1 - tau) * (lo s a - e1) <= (1 - tau) * z1) by (apply Rmult_le_compat_l; lra). assert (tau * (lo s a - e2) <= tau * z2) by (apply Rmult_le_compat_l; lra).
  assert (0 <= (1 - tau) * e1) by (apply Rmult_le_pos; lra). assert (0 <= tau * e2) by (apply Rmult_le_pos; lra). lra.
Qed.
Lemma yrun_run : forall os y, yrun nA net target loss grads sub y os = run ystep y os.
Proof. induction os as [|o os IH]; intros y; [reflexivity|]. cbn [yrun run]. destruct (ystep y o) as [y1 [u|e]]; auto. Qed.
Lemma between_tab : forall p D, 0 <= D -> (between nS nA net p lo hi D <-> is_tab p /\ le nS nA (err_tab p) D).
Proof.
  intros p D HD. split.
  - intros (th & -> & L & H). split; [split; [reflexivity|exact L]|]. intros s a Hs Ha. unfold err_tab. change (tab (Node [0%nat] [Node [0%nat] [Leaf th]])) with th. destruct (H s a Hs Ha) as (x & X1 & X2). rewrite (tab_call T th) in X1 by auto. injection X1 as <-. apply dist_le. lra.
  - intros [[E L] H]. exists (tab p). split; [exact E|]. split; auto. intros s a Hs Ha. exists (tq (tab p) s a). split; [now apply (tab_call T)|]. specialize (H s a Hs Ha). apply dist_le in H. tauto.
Qed.
Hypothesis Hbeta : 0 <= beta cl lr wl B <= 1.
Lemma good_between : forall y D, 0 <= D -> (good nS nA (fun y => err_tab (q_params y)) (fun y => err_tab (targ_params y)) ok_sys y D <-> sgd_learner lr sub y /\ between nS nA net (q_params y) lo hi D /\ between nS nA net (targ_params y) lo hi D).
Proof. intros y D HD. rewrite !between_tab by auto. unfold good, ok_sys. tauto. Qed.
Lemma between_never : forall os y D, 0 <= D <= D0 -> sgd_learner lr sub y -> between nS nA net (q_params y) lo hi D -> between nS nA net (targ_params y) lo hi D ->
  (forall o, In o os -> noisy_op nS nA nW dyn gamma lr wl B o) -> (y_targ y = None -> forall o, In o os -> exists b, o = YUpdate b) ->
  exists y', yrun nA net target loss grads sub y os = (y', Ok tt) /\ sgd_learner lr sub y' /\ between nS nA net (q_params y') lo hi D /\ between nS nA net (targ_params y') lo hi D.
Proof.
  intros os y D HD SG B1 B2 OK NS.
  destruct (@never_worse nS nA sys yop ystep (fun y => err_tab (q_params y)) (fun y => err_tab (targ_params y)) (visits nA) op_sync (noisy_op nS nA nW dyn gamma lr wl B) ok_sys has_targ gamma (beta cl lr wl B) D0 Hg Hbeta) with (os := os) (x := y) (D := D) as (y' & R & G & _); auto.
  - intros o tau Ho So. destruct o; [discriminate|]. injection So as ->. exact Ho.
  - exact between_update.
  - exact between_sync.
  - intros o tau So s a. destruct o; [discriminate|]. intros [].
  - now apply good_between.
  - unfold has_targ. intros N o Io. destruct (y_targ y); [discriminate|]. destruct (NS eq_refl o Io) as [b ->]. reflexivity.
  - exists y'. rewrite yrun_run. split; auto. apply good_between; auto. lra.
Qed.
Lemma between_rounds : forall tau0 rs y D, 0 < tau0 <= 1 -> 0 <= D <= D0 -> sgd_learner lr sub y -> between nS nA net (q_params y) lo hi D -> between nS nA net (targ_params y) lo hi D ->
  (forall os, In os rs -> noisy_round nS nA nW dyn gamma lr wl tau0 B y os) -> let D' := (1 - tau0 * (beta cl lr wl B * (1 - gamma))) ^ length rs * D in
  exists y', yrun nA net target loss grads sub y (concat rs) = (y', Ok tt) /\ between nS nA net (q_params y') lo hi D' /\ between nS nA net (targ_params y') lo hi D'.
Proof.
  intros tau0 rs y D Ht HD SG B1 B2 RD D'.
  destruct (@rounds_good nS nA sys yop ystep (fun y => err_tab (q_params y)) (fun y => err_tab (targ_params y)) (visits nA) op_sync (noisy_op nS nA nW dyn gamma lr wl B) ok_sys has_targ gamma (beta cl lr wl B) D0 Hg Hbeta) with (rs := rs) (x := y) (D := D) (tau0 := tau0) as (y' & R & G & _); auto.
  - intros o tau Ho So. destruct o; [discriminate|]. injection So as ->. exact Ho.
  - exact between_update.
  - exact between_sync.
  - intros o tau So s a. destruct o; [discriminate|]. intros [].
  - apply good_between; auto; lra.
  - intros os Io. destruct (RD os Io) as [OK X]. split; auto. unfold has_targ. destruct (y_targ y).
    + destruct X as (os1 & tau & os2 & -> & C & Hta). exists os1, (YSync tau), tau, os2. auto.
    + destruct X as [C NS]. split; auto. intros o Ho. destruct (NS o Ho) as [b ->]. reflexivity.
  - exists y'. rewrite yrun_run. split; auto. apply good_between in G; [exact (proj2 G)|]. pose proof (@rate01 gamma (beta cl lr wl B) Hg Hbeta tau0 Ht) as [_ K]. apply Rmult_le_pos; [apply pow_le; exact (proj1 K)|lra].
Qed.
End Between.
