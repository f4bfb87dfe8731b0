From Coq Require Import List Lia Bool Arith Reals Lra.
From Verif Require Import PyCommon CommonProofs UtilsModel UtilsSpec UtilsProofs2 UtilsProofs3 WrappersProofs DistModel DistSpec DistProofs DistProofs2 DistProofs3 LossModel LossSpec LossProofs QModel QProofs QProps TDModel TDSpec TDProofs TDProofs2 TDProofs3 TDProofs4 CoreModel CoreSpec CoreProofs CoreProofs2 StochModel StochSpec StochProofs LearnModel LearnSpec LearnProofs LearnProofs2 LearnProofs3 LearnProofs5 NoiseProofs2 MbModel MbSpec MbProofs MbProofs2.
Import ListNotations.
Set Implicit Arguments.
Local Open Scope R_scope.

Section Run.
Variables nS nA : nat.
Variable gamma : R.
Variable rows : list trans.
Variable b : fbatch nat.
Hypothesis HS : (1 <= nS)%nat.
Hypothesis HB : bounded nS nA rows.
Hypothesis HR : records nA gamma rows b.
Hypothesis NE : rows <> [].
Variables (lp lr : R -> R -> R) (gp gr gv : fbatch nat -> list R -> list R).
Hypothesis HG : grads_ok nS nA lp lr gp gr gv b.
Variables lo hi lrv lrp lrr : R.
Hypothesis Qp : quadratic lp 1.
Hypothesis Qr : quadratic lr (hi - lo).
Hypothesis Fv : rate_fits lrv rows.
Hypothesis Fp : rate_fits lrp rows.
Hypothesis Fr : rate_fits lrr rows.
Hypothesis Rew : forall x, In x rows -> lo <= t_r x <= hi.
Let N := INR (length rows).
Notation step := (astep nS nA lp lr mse gp gr gv).
Notation run := (arun nS nA lp lr mse gp gr gv).
Definition p_in (w : list R) : Prop := forall s a k, (s < nS)%nat -> (a < nA)%nat -> (k < nS)%nat -> 0 <= nth ((s * nA + a) * nS + k) w 0 <= 1.
Definition r_in (w : list R) : Prop := forall s a, (s < nS)%nat -> (a < nA)%nat -> lo <= nth (s * nA + a) w 0 <= hi.

Lemma pick_step : forall (th g : list R) c i, (i < length th)%nat -> nth i (map (fun i => nth i th 0 - c * nth i g 0) (seq 0 (length th))) 0 = nth i th 0 - c * nth i g 0.
Proof. intros th g c i Hi. rewrite (@nth_map_any _ _ _ (seq 0 (length th)) i 0 0%nat) by (now rewrite seq_length). now rewrite seq_nth. Qed.

(** What one update does. *)
Lemma step_r : forall y wv wp wr, tables nS nA lrv lrp lrr y wv wp wr -> r_in wr -> exists y' wr', step y (AR b) = (y', Ok tt) /\ tables nS nA lrv lrp lrr y' wv wp wr' /\ r_in wr' /\
  forall s a, (s < nS)%nat -> (a < nA)%nat -> nth (s * nA + a) wr' 0 = wmean (at_sa s a) t_r rows + (1 - share lrr N (at_sa s a) rows) * (nth (s * nA + a) wr 0 - wmean (at_sa s a) t_r rows).
Proof.
  intros y wv wp wr (Hv & Hp & [O P] & Lv & Lp & Lr) RI. destruct HG as (_ & G & _). specialize (G wr Lr). destruct (quadratic_slope Qr) as (l' & D & Q).
  destruct (@gm_update (r_loss nS nA lr b) (gr b) lrr (ag_r y) wr _ O P (@r_loss_eq nS nA gamma rows b HB HR NE lr wr) (proj1 G)) as (L & E & O' & P').
  exists (mk_agent (ag_v y) (ag_p y) L), (map (fun i => nth i wr 0 - lrr * nth i (gr b wr) 0) (seq 0 (length wr))). split; [cbn [astep]; rewrite E; reflexivity|].
  assert (X : forall s a, (s < nS)%nat -> (a < nA)%nat -> nth (s * nA + a) (map (fun i => nth i wr 0 - lrr * nth i (gr b wr) 0) (seq 0 (length wr))) 0 = wmean (at_sa s a) t_r rows + (1 - share lrr N (at_sa s a) rows) * (nth (s * nA + a) wr 0 - wmean (at_sa s a) t_r rows)).
  { intros s a Hs Ha. assert (I := index_lt Hs Ha). rewrite pick_step by lia.
    destruct (@grad_entry (r_loss nS nA lr b) lr l' N (r_cells nA rows) wr (gr b wr) (s * nA + a) D (fun w => @r_loss_eq nS nA gamma rows b HB HR NE lr w)) as [_ ->]; auto; [intros c Hc; rewrite Lr; eapply r_pos; eauto|lia|].
    unfold N. rewrite (@r_entry nS nA rows HB) by auto. rewrite (@wsum_ext _ _ (fun x => nth (s * nA + a) wr 0 - t_r x)); [apply step_mean|]. intros x Hx _. apply Q. pose proof (Rew x Hx). pose proof (RI s a Hs Ha). unfold Rabs. destruct (Rcase_abs _); lra. }
  split; [|split; auto].
  - split; [exact Hv|]. split; [exact Hp|]. split; [split; auto|]. split; auto. split; auto. now rewrite map_length, seq_length.
  - intros s a Hs Ha. rewrite X by auto. pose proof (share_bounds (at_sa s a) Fr NE (Rle_refl N)) as SB. pose proof (RI s a Hs Ha). destruct (weight_case (at_sa s a) rows) as [Z|W].
    + assert (S0 : share lrr N (at_sa s a) rows = 0) by (unfold share; rewrite (weight_zero _ _ Z); unfold Rdiv; ring). rewrite S0. replace (wmean (at_sa s a) t_r rows + (1 - 0) * (nth (s * nA + a) wr 0 - wmean (at_sa s a) t_r rows)) with (nth (s * nA + a) wr 0) by ring. auto.
    + assert (lo <= wmean (at_sa s a) t_r rows <= hi) by (apply wmean_bounds; auto). nra.
Qed.
Lemma N_le : N <= N * INR nS.
Proof. assert (1 <= INR nS) by (apply (le_INR 1); lia). assert (0 < N) by now apply length_pos. nra. Qed.
Lemma step_p : forall y wv wp wr, tables nS nA lrv lrp lrr y wv wp wr -> p_in wp -> exists y' wp', step y (AP b) = (y', Ok tt) /\ tables nS nA lrv lrp lrr y' wv wp' wr /\ p_in wp' /\
  forall s a k, (s < nS)%nat -> (a < nA)%nat -> (k < nS)%nat -> nth ((s * nA + a) * nS + k) wp' 0 = wmean (at_sa s a) (hit k) rows + (1 - share lrp (N * INR nS) (at_sa s a) rows) * (nth ((s * nA + a) * nS + k) wp 0 - wmean (at_sa s a) (hit k) rows).
Proof.
  intros y wv wp wr (Hv & [O P] & Hr & Lv & Lp & Lr) PI. destruct HG as (G & _ & _). specialize (G wp Lp). destruct (quadratic_slope Qp) as (l' & D & Q).
  destruct (@gm_update (p_loss nS nA lp b) (gp b) lrp (ag_p y) wp _ O P (@p_loss_eq nS nA gamma rows b HB HR NE HS lp wp) (proj1 G)) as (L & E & O' & P').
  exists (mk_agent (ag_v y) L (ag_r y)), (map (fun i => nth i wp 0 - lrp * nth i (gp b wp) 0) (seq 0 (length wp))). split; [cbn [astep]; rewrite E; reflexivity|].
  assert (X : forall s a k, (s < nS)%nat -> (a < nA)%nat -> (k < nS)%nat -> nth ((s * nA + a) * nS + k) (map (fun i => nth i wp 0 - lrp * nth i (gp b wp) 0) (seq 0 (length wp))) 0 =
    wmean (at_sa s a) (hit k) rows + (1 - share lrp (N * INR nS) (at_sa s a) rows) * (nth ((s * nA + a) * nS + k) wp 0 - wmean (at_sa s a) (hit k) rows)).
  { intros s a k Hs Ha Hk. assert (I := index_lt Hs Ha). assert (I' := index_lt I Hk). rewrite pick_step by lia.
    destruct (@grad_entry (p_loss nS nA lp b) lp l' (N * INR nS) (p_cells nS nA rows) wp (gp b wp) ((s * nA + a) * nS + k) D (fun w => @p_loss_eq nS nA gamma rows b HB HR NE HS lp w)) as [_ ->]; auto; [intros c Hc; rewrite Lp; eapply p_pos; eauto|lia|].
    rewrite (@p_entry nS nA rows HB) by auto. rewrite (@wsum_ext _ _ (fun x => nth ((s * nA + a) * nS + k) wp 0 - hit k x)); [apply step_mean|]. intros x Hx _. unfold hit. apply Q. pose proof (PI s a k Hs Ha Hk). unfold Rabs. destruct (Nat.eqb k (t_next x)); destruct (Rcase_abs _); lra. }
  split; [|split; auto].
  - split; [exact Hv|]. split; [split; auto|]. split; [exact Hr|]. split; auto. split; auto. now rewrite map_length, seq_length.
  - intros s a k Hs Ha Hk. rewrite X by auto. pose proof (share_bounds (at_sa s a) Fp NE N_le) as SB. pose proof (PI s a k Hs Ha Hk) as Y. destruct (weight_case (at_sa s a) rows) as [Z|W].
    + assert (S0 : share lrp (N * INR nS) (at_sa s a) rows = 0) by (unfold share; rewrite (weight_zero _ _ Z); unfold Rdiv; ring). rewrite S0. replace (wmean (at_sa s a) (hit k) rows + (1 - 0) * (nth ((s * nA + a) * nS + k) wp 0 - wmean (at_sa s a) (hit k) rows)) with (nth ((s * nA + a) * nS + k) wp 0) by ring. auto.
    + assert (0 <= wmean (at_sa s a) (hit k) rows <= 1) by (apply wmean_bounds; auto; intros x _ _; unfold hit; destruct (Nat.eqb _ _); lra). nra.
Qed.
Lemma step_v : forall y wv wp wr, tables nS nA lrv lrp lrr y wv wp wr -> exists y' wv', step y (AV b) = (y', Ok tt) /\ tables nS nA lrv lrp lrr y' wv' wp wr /\
  forall s, (s < nS)%nat -> nth s wv' 0 = back gamma rows (fun i => nth i wv 0) s + (1 - share lrv N (at_s s) rows) * (nth s wv 0 - back gamma rows (fun i => nth i wv 0) s).
Proof.
  intros y wv wp wr ([O P] & Hp & Hr & Lv & Lp & Lr). destruct HG as (_ & _ & G). specialize (G wv Lv).
  destruct (@gm_update (fun th => v_loss nS mse th b th) (gv b) lrv (ag_v y) wv _ O P (@v_loss_eq nS nA gamma rows b HB HR NE mse1 wv wv) (proj1 G)) as (L & E & O' & P').
  exists (mk_agent L (ag_p y) (ag_r y)), (map (fun i => nth i wv 0 - lrv * nth i (gv b wv) 0) (seq 0 (length wv))). split; [cbn [astep]; rewrite E; reflexivity|]. split.
  - split; [split; auto|]. split; [exact Hp|]. split; [exact Hr|]. split; [now rewrite map_length, seq_length|]. auto.
  - intros s Hs. rewrite pick_step by lia.
    destruct (@grad_entry (v_loss nS mse wv b) mse1 (fun y h => h - y) N (v_cells gamma rows wv) wv (gv b wv) s mse_deriv (fun w => @v_loss_eq nS nA gamma rows b HB HR NE mse1 wv w)) as [_ ->]; auto; [intros c Hc; rewrite Lv; eapply v_pos; eauto|lia|].
    unfold N. rewrite v_entry. rewrite step_mean. unfold back, v_targ.
    rewrite (@wmean_ext (at_s s) (fun x => t_r x + (if t_done x then 0 else gamma) * nth (t_next x) wv 0) (fun x => t_r x + (if t_done x then 0 else gamma * nth (t_next x) wv 0))); [reflexivity|]. intros x _ _. destruct (t_done x); ring.
Qed.

(** * Whole programs *)
Hypothesis Hg : 0 <= gamma < 1.
Hypothesis ES : every_state nS rows.
Variable vh : nat -> R.
Hypothesis VH : data_values nS gamma rows vh.
Definition v_err (w : list R) (D : R) : Prop := forall s, (s < nS)%nat -> Rabs (nth s w 0 - vh s) <= D.
Definition rho : R := 1 - lrv * (1 - gamma) / (10 * N).
Lemma N_pos : 0 < N. Proof. now apply length_pos. Qed.
Lemma rho_bounds : 0 <= rho < 1.
Proof.
  assert (Np := N_pos). destruct Fv as [L0 L1]. unfold rho. destruct rows as [|x xs] eqn:ER; [congruence|]. pose proof (L1 x (or_introl eq_refl)) as X. pose proof (cw_pos x). assert (lrv <= 10) by nra.
  assert (N1 : 1 <= N) by (unfold N; apply (le_INR 1); cbn; lia). assert (0 < lrv * (1 - gamma)) by nra. assert (P : 0 < / (10 * N)) by (apply Rinv_0_lt_compat; lra).
  assert (lrv * (1 - gamma) / (10 * N) <= 1). { apply (Rmult_le_reg_r (10 * N)); [lra|]. unfold Rdiv. rewrite Rmult_assoc, Rinv_l by lra. nra. }
  assert (0 < lrv * (1 - gamma) / (10 * N)) by (unfold Rdiv; nra). lra.
Qed.
Lemma v_shrinks : forall w w' D, 0 <= D -> v_err w D -> (forall s, (s < nS)%nat -> nth s w' 0 = back gamma rows (fun i => nth i w 0) s + (1 - share lrv N (at_s s) rows) * (nth s w 0 - back gamma rows (fun i => nth i w 0) s)) -> v_err w' (rho * D).
Proof.
  intros w w' D HD HE H s Hs. rewrite H by auto. pose proof (share_bounds (at_s s) Fv NE (Rle_refl N)) as SB. assert (SL : lrv / (10 * N) <= share lrv N (at_s s) rows) by (apply share_low; [apply Fv|apply N_pos|now apply at_some with nS]).
  pose proof (@back_close nS nA gamma rows HB Hg ES (fun i => nth i w 0) vh D HD HE s Hs) as BC. pose proof (VH Hs) as V. fold (back gamma rows vh s) in V. rewrite <- V in BC. specialize (HE s Hs).
  set (be := share lrv N (at_s s) rows) in *. set (B := back gamma rows (fun i => nth i w 0) s) in *.
  replace (B + (1 - be) * (nth s w 0 - B) - vh s) with (be * (B - vh s) + (1 - be) * (nth s w 0 - vh s)) by ring. eapply Rle_trans; [apply Rabs_triang|]. rewrite !Rabs_mult, (Rabs_right be), (Rabs_right (1 - be)) by lra.
  apply Rle_trans with (be * (gamma * D) + (1 - be) * D); [apply Rplus_le_compat; apply Rmult_le_compat_l; lra|]. unfold rho. replace (lrv * (1 - gamma) / (10 * N)) with (lrv / (10 * N) * (1 - gamma)) by (field; pose proof N_pos; lra). assert (0 <= (be - lrv / (10 * N)) * ((1 - gamma) * D)) by (apply Rmult_le_pos; [lra|apply Rmult_le_pos; lra]). lra.
Qed.
Lemma count_cons : forall P o os, count P (o :: os) = ((if P o then 1 else 0) + count P os)%nat.
Proof. intros P o os. unfold count. cbn [filter]. destruct (P o); reflexivity. Qed.
Lemma run_ok : forall os y wv wp wr D, (forall o, In o os -> on b o) -> tables nS nA lrv lrp lrr y wv wp wr -> p_in wp -> r_in wr -> 0 <= D -> v_err wv D ->
  exists y' wv' wp' wr', run y os = (y', Ok tt) /\ tables nS nA lrv lrp lrr y' wv' wp' wr' /\
    (forall s a k, (s < nS)%nat -> (a < nA)%nat -> (k < nS)%nat -> nth ((s * nA + a) * nS + k) wp' 0 = wmean (at_sa s a) (hit k) rows + (1 - share lrp (N * INR nS) (at_sa s a) rows) ^ count is_p os * (nth ((s * nA + a) * nS + k) wp 0 - wmean (at_sa s a) (hit k) rows)) /\
    (forall s a, (s < nS)%nat -> (a < nA)%nat -> nth (s * nA + a) wr' 0 = wmean (at_sa s a) t_r rows + (1 - share lrr N (at_sa s a) rows) ^ count is_r os * (nth (s * nA + a) wr 0 - wmean (at_sa s a) t_r rows)) /\
    v_err wv' (rho ^ count is_v os * D).
Proof.
  intros os. induction os as [|o os IH]; intros y wv wp wr D HO HT HP HRI HD HV.
  - exists y, wv, wp, wr. split; [reflexivity|]. split; auto. unfold count. cbn [filter length pow]. repeat split; intros; try ring. rewrite Rmult_1_l. exact HV.
  - pose proof rho_bounds as RB. destruct (HO o (or_introl eq_refl)) as [-> | [-> | ->]].
    + destruct (step_v HT) as (y1 & w1 & E1 & T1 & X1). assert (V1 := @v_shrinks wv w1 D HD HV X1). destruct (IH y1 w1 wp wr (rho * D)) as (y' & wv' & wp' & wr' & E & T & A1 & A2 & A3); auto; [intros; apply HO; now right|nra|].
      exists y', wv', wp', wr'. cbn [arun]. rewrite E1, !count_cons. cbn [is_v is_p is_r Nat.add]. split; [exact E|]. split; [exact T|]. split; [exact A1|]. split; [exact A2|]. intros s Hs. cbn [pow]. specialize (A3 s Hs). lra.
    + destruct (step_p HT HP) as (y1 & w1 & E1 & T1 & I1 & X1). destruct (IH y1 wv w1 wr D) as (y' & wv' & wp' & wr' & E & T & A1 & A2 & A3); auto; [intros; apply HO; now right|].
      exists y', wv', wp', wr'. cbn [arun]. rewrite E1, !count_cons. cbn [is_v is_p is_r Nat.add]. split; [exact E|]. split; [exact T|]. split; [|split; [exact A2|exact A3]]. intros s a k Hs Ha Hk. rewrite A1, X1 by auto. cbn [pow]. ring.
    + destruct (step_r HT HRI) as (y1 & w1 & E1 & T1 & I1 & X1). destruct (IH y1 wv wp w1 D) as (y' & wv' & wp' & wr' & E & T & A1 & A2 & A3); auto; [intros; apply HO; now right|].
      exists y', wv', wp', wr'. cbn [arun]. rewrite E1, !count_cons. cbn [is_v is_p is_r Nat.add]. split; [exact E|]. split; [exact T|]. split; [exact A1|]. split; [|exact A3]. intros s a Hs Ha. rewrite A2, X1 by auto. cbn [pow]. ring.
Qed.
End Run.

(** * Calls of the composite q-function *)
Section Call.
Variables nS nA : nat.
Variable gamma : R.
Definition q_tab (wv wp wr : list R) (s a : nat) : R := nth (s * nA + a) wr 0 + gamma * total (map (fun k => nth ((s * nA + a) * nS + k) wp 0 * nth k wv 0) (seq 0 nS)).
Lemma v_of_row : forall wv wp c, v_net wv (map (fun j => nth (c * nS + j) wp 0) (seq 0 nS)) = total (map (fun k => nth (c * nS + k) wp 0 * nth k wv 0) (seq 0 nS)).
Proof. intros wv wp c. rewrite v_sum, map_length, seq_length. apply total_ext. intros i Hi. apply in_seq in Hi. rewrite (@nth_map_any _ _ _ (seq 0 nS) i 0 0%nat) by (rewrite seq_length; lia). now rewrite seq_nth by lia. Qed.
Lemma call_a : forall lrv lrp lrr y wv wp wr s a, tables nS nA lrv lrp lrr y wv wp wr -> (s < nS)%nat -> (a < nA)%nat -> ag_call_a nS nA gamma y s a = Ok (q_tab wv wp wr s a).
Proof.
  intros lrv lrp lrr y wv wp wr s a ([_ P1] & [_ P2] & [_ P3] & _) Hs Ha. unfold ag_call_a. rewrite P1, P2, P3. cbn [unwrap]. unfold ssq_call_a, ssq_type1, p_net, r_net, function_type1. cbn [vmap2 bind map].
  unfold ssq_row. rewrite p_row, r_row, v_of_row by auto. reflexivity.
Qed.
Lemma call_s : forall lrv lrp lrr y wv wp wr s, (1 <= nA)%nat -> tables nS nA lrv lrp lrr y wv wp wr -> (s < nS)%nat -> ag_call_s nS nA gamma y s = Ok (map (q_tab wv wp wr s) (seq 0 nA)).
Proof.
  intros lrv lrp lrr y wv wp wr s HA ([_ P1] & [_ P2] & [_ P3] & _) Hs. unfold ag_call_s. rewrite P1, P2, P3. cbn [unwrap]. unfold ssq_call_s.
  rewrite (@ssq_type2_at _ _ _ [] 0 (fun _ => True) (fun _ => True) nA (one_hot nA) (fun x => x) (fun x => x) (v_net wv) (fun x => x) (fun x => x) gamma HA (p_net nS wp) (r_net wr) I I). cbn [bind map]. rewrite map_id. f_equal. apply map_ext_in. intros a Ha. apply in_seq in Ha.
  unfold succ_value, at_action, p_net, r_net. rewrite p_row, r_row, v_of_row by (auto; lia). reflexivity.
Qed.
End Call.
