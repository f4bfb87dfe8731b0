From Coq Require Import List Lia Bool Arith Reals Lra.
From Verif Require Import PyCommon CommonProofs UtilsModel UtilsSpec UtilsProofs2 UtilsProofs3 WrappersProofs DistModel DistSpec DistProofs DistProofs2 DistProofs3 LossModel LossSpec LossProofs QModel QProofs QProps TDModel TDSpec TDProofs TDProofs2 TDProofs3 TDProofs4 CoreModel CoreSpec CoreProofs CoreProofs2 StochModel LearnModel LearnSpec LearnProofs LearnProofs2 LearnProofs3 LearnProofs5 NoiseProofs2 MbModel MbSpec MbProofs MbProofs2 MbProofs3.
Import ListNotations.
Set Implicit Arguments.
Local Open Scope R_scope.

(** The mean over the rows of a pair as an expectation over next states. *)
Lemma wmean_sum : forall P (h : nat -> trans -> R) (c : nat -> R) rows L, wmean P (fun x => total (map (fun k => h k x * c k) L)) rows = total (map (fun k => wmean P (h k) rows * c k) L).
Proof.
  intros P h c rows L. induction L as [|k L IH].
  - cbn. unfold wmean. rewrite (wsum_const P 0). unfold Rdiv. ring.
  - cbn [map]. rewrite total_cons, <- IH. rewrite (@wmean_ext P _ (fun x => c k * h k x + total (map (fun k => h k x * c k) L))) by (intros; rewrite total_cons; ring). rewrite wmean_plus, wmean_scal. ring.
Qed.
Lemma next_mean : forall nS nA P rows v, bounded nS nA rows -> total (map (fun k => wmean P (hit k) rows * v k) (seq 0 nS)) = wmean P (fun x => v (t_next x)) rows.
Proof.
  intros nS nA P rows v HB. rewrite <- wmean_sum. apply wmean_ext. intros x Hx _. destruct (HB x Hx) as (_ & _ & C). rewrite (@total_pick _ nS (t_next x) C).
  - unfold hit. rewrite Nat.eqb_refl. ring.
  - intros k Hk. unfold hit. destruct (Nat.eqb_spec k (t_next x)); [congruence|ring].
Qed.
Lemma total_abs : forall (A : Type) (f : A -> R) l c, (forall x, In x l -> Rabs (f x) <= c) -> Rabs (total (map f l)) <= INR (length l) * c.
Proof.
  intros A f l c H. rewrite <- (total_const c l). assert (U : total (map f l) <= total (map (fun _ => c) l)) by (apply total_le; intros x Hx; specialize (H x Hx); unfold Rabs in H; destruct (Rcase_abs _); lra).
  assert (V : total (map (fun x => - 1 * f x) l) <= total (map (fun _ => c) l)) by (apply total_le; intros x Hx; specialize (H x Hx); unfold Rabs in H; destruct (Rcase_abs _); lra). rewrite total_scal in V. unfold Rabs. destruct (Rcase_abs _); lra.
Qed.

Section Q.
Variables nS nA : nat.
Variable gamma : R.
Variable rows : list trans.
Hypothesis HB : bounded nS nA rows.
Hypothesis Hg : 0 <= gamma < 1.
Variable vh : nat -> R.
(** The limit of the composite q-function. *)
Definition q_lim (s a : nat) : R := wmean (at_sa s a) (fun x => t_r x + gamma * vh (t_next x)) rows.
Lemma q_lim_split : forall s a, q_lim s a = wmean (at_sa s a) t_r rows + gamma * total (map (fun k => wmean (at_sa s a) (hit k) rows * vh k) (seq 0 nS)).
Proof. intros s a. unfold q_lim. rewrite wmean_plus, (wmean_scal _ (fun x => vh (t_next x))). now rewrite (@next_mean nS nA). Qed.
Lemma q_close : forall wv wp wr s a er ep ev V, (s < nS)%nat -> (a < nA)%nat -> 0 <= ep -> 0 <= ev -> (exists x, In x rows /\ at_sa s a x = true) ->
  Rabs (nth (s * nA + a) wr 0 - wmean (at_sa s a) t_r rows) <= er -> (forall k, (k < nS)%nat -> Rabs (nth ((s * nA + a) * nS + k) wp 0 - wmean (at_sa s a) (hit k) rows) <= ep) ->
  (forall k, (k < nS)%nat -> Rabs (nth k wv 0 - vh k) <= ev /\ Rabs (vh k) <= V) ->
  Rabs (q_tab nS nA gamma wv wp wr s a - q_lim s a) <= er + gamma * (INR nS * (ep * (V + ev)) + ev).
Proof.
  intros wv wp wr s a er ep ev V Hs Ha Pp Pv VIS ER EP EV. rewrite q_lim_split. unfold q_tab.
  set (T1 := total (map (fun k => (nth ((s * nA + a) * nS + k) wp 0 - wmean (at_sa s a) (hit k) rows) * nth k wv 0) (seq 0 nS))).
  set (T2 := total (map (fun k => wmean (at_sa s a) (hit k) rows * (nth k wv 0 - vh k)) (seq 0 nS))).
  assert (E : total (map (fun k => nth ((s * nA + a) * nS + k) wp 0 * nth k wv 0) (seq 0 nS)) - total (map (fun k => wmean (at_sa s a) (hit k) rows * vh k) (seq 0 nS)) = T1 + T2). { unfold T1, T2. rewrite <- total_minus, <- total_plus. apply total_ext. intros. ring. }
  assert (A1 : Rabs T1 <= INR nS * (ep * (V + ev))).
  { unfold T1. rewrite <- (seq_length nS 0) at 2. apply total_abs. intros k Hk. apply in_seq in Hk. destruct (EV k) as [E1 E2]; [lia|]. specialize (EP k ltac:(lia)). rewrite Rabs_mult. apply Rmult_le_compat; try apply Rabs_pos; auto. replace (nth k wv 0) with (vh k + (nth k wv 0 - vh k)) by ring. eapply Rle_trans; [apply Rabs_triang|]. lra. }
  assert (A2 : Rabs T2 <= ev).
  { unfold T2. rewrite (@next_mean nS nA (at_sa s a) rows (fun k => nth k wv 0 - vh k) HB).
    assert (B : - ev <= wmean (at_sa s a) (fun x => nth (t_next x) wv 0 - vh (t_next x)) rows <= ev). { apply wmean_bounds; auto. intros x Hx _. destruct (HB x Hx) as (_ & _ & C). destruct (EV _ C) as [B _]. unfold Rabs in B. destruct (Rcase_abs _); lra. }
    unfold Rabs. destruct (Rcase_abs _); lra. }
  match goal with |- Rabs ?e <= _ => replace e with ((nth (s * nA + a) wr 0 - wmean (at_sa s a) t_r rows) + gamma * (T1 + T2)) by (rewrite <- E; ring) end.
  eapply Rle_trans; [apply Rabs_triang|]. apply Rplus_le_compat; auto. rewrite Rabs_mult, (Rabs_right gamma) by lra. apply Rmult_le_compat_l; [lra|]. eapply Rle_trans; [apply Rabs_triang|]. lra.
Qed.
End Q.

(** * Convergence *)
Section Conv.
Variables nS nA : nat.
Variable gamma : R.
Variable rows : list trans.
Variable b : fbatch nat.
Hypothesis HS : (1 <= nS)%nat.
Hypothesis HB : bounded nS nA rows.
Hypothesis HR : records nA gamma rows b.
Hypothesis NE : rows <> [].
Variables (lp lr : R -> R -> R) (gp gr gv : fbatch nat -> list R -> list R).
Hypothesis HG : grads_ok nS nA lp lr gp gr gv b.
Variables lo hi lrv lrp lrr : R.
Hypothesis Qp : quadratic lp 1.
Hypothesis Qr : quadratic lr (hi - lo).
Hypothesis Fv : rate_fits lrv rows.
Hypothesis Fp : rate_fits lrp rows.
Hypothesis Fr : rate_fits lrr rows.
Hypothesis Rew : forall x, In x rows -> lo <= t_r x <= hi.
Hypothesis Hg : 0 <= gamma < 1.
Hypothesis ES : every_state nS rows.
Variable vh : nat -> R.
Hypothesis VH : data_values nS gamma rows vh.
Let N := INR (length rows).
Notation run := (arun nS nA lp lr mse gp gr gv).
Lemma geometric : forall be c x D n, 0 < c -> c <= be <= 1 -> Rabs x <= D -> Rabs ((1 - be) ^ n * x) <= (1 - c) ^ n * D.
Proof.
  intros be c x D n Hc Hb HD. rewrite Rabs_mult. rewrite (Rabs_right ((1 - be) ^ n)) by (apply Rle_ge, pow_le; lra). apply Rmult_le_compat; auto; [apply pow_le; lra|apply Rabs_pos|]. apply pow_incr. lra.
Qed.
Lemma conv : forall y wv wp wr eps, tables nS nA lrv lrp lrr y wv wp wr -> p_in nS nA wp -> r_in nS nA lo hi wr -> 0 < eps -> exists n0, forall os, (forall o, In o os -> on b o) ->
  (n0 <= count is_v os)%nat -> (n0 <= count is_p os)%nat -> (n0 <= count is_r os)%nat ->
  exists y' wv' wp' wr', run y os = (y', Ok tt) /\ tables nS nA lrv lrp lrr y' wv' wp' wr' /\
  forall s a, (s < nS)%nat -> (a < nA)%nat -> (exists x, In x rows /\ at_sa s a x = true) -> Rabs (q_tab nS nA gamma wv' wp' wr' s a - q_lim gamma rows vh s a) <= eps.
Proof.
  intros y wv wp wr eps HT HP HRI He. assert (Np : 0 < N) by now apply length_pos. assert (S1 : 1 <= INR nS) by (apply (le_INR 1); lia).
  set (D := bound nS 1 (fun s _ => nth s wv 0 - vh s)). assert (D0 : 0 <= D) by apply bound_pos. assert (V0 : v_err nS vh wv D) by (intros s Hs; exact (@bound_ok nS 1 (fun s _ => nth s wv 0 - vh s) s 0%nat Hs (le_n 1))).
  set (V := bound nS 1 (fun s _ => vh s)). assert (VP : 0 <= V) by apply bound_pos. assert (VB : forall s, (s < nS)%nat -> Rabs (vh s) <= V) by (intros s Hs; exact (@bound_ok nS 1 (fun s _ => vh s) s 0%nat Hs (le_n 1))).
  assert (RB := @rho_bounds nS nA gamma rows b HS HB HR NE lo hi lrv lrp lrr Fv Fp Fr Rew Hg ES vh VH).
  set (cr := lrr / (10 * N)). set (cp := lrp / (10 * (N * INR nS))).
  assert (Cr : 0 < cr) by (unfold cr; apply Rdiv_lt_0_compat; [apply Fr|lra]). assert (Cp : 0 < cp) by (unfold cp; apply Rdiv_lt_0_compat; [apply Fp|nra]).
  assert (X0 : exists x, In x rows) by (clear - NE; destruct rows as [|x xs]; [congruence|exists x; now left]). destruct X0 as [x0 Hx0]. assert (LH : 0 <= hi - lo) by (pose proof (Rew x0 Hx0); lra).
  assert (C1 : cr <= 1 /\ cp <= 1). { assert (X0 : exists x, In x rows /\ at_s (t_s x0) x = true) by (exists x0; split; [exact Hx0|unfold at_s; apply Nat.eqb_refl]).
    pose proof (share_bounds (at_s (t_s x0)) Fr NE (Rle_refl N)) as Y1. pose proof (share_bounds (at_s (t_s x0)) Fp NE (@N_le nS rows HS NE)) as Y2. pose proof (@share_low lrr N _ rows (proj1 Fr) Np X0) as Z1. pose proof (@share_low lrp (N * INR nS) _ rows (proj1 Fp) ltac:(nra) X0) as Z2. fold cr in Z1. fold cp in Z2. fold N in Y2. lra. }
  set (e1 := eps / 4). set (ev := Rmin (e1 / 1) 1). set (ep := e1 / (INR nS * (V + 1))).
  assert (Q : 0 < INR nS * (V + 1)) by nra. assert (Ep : 0 < ep) by (unfold ep, e1; apply Rdiv_lt_0_compat; lra). assert (Ev : 0 < ev) by (unfold ev, e1; apply Rmin_pos; lra). assert (Ev1 : ev <= e1 /\ ev <= 1) by (unfold ev; split; [eapply Rle_trans; [apply Rmin_l|lra]|apply Rmin_r]).
  destruct (@pow_small (@rho gamma rows lrv) D ev RB D0 Ev) as [n1 H1]. destruct (@pow_small (1 - cr) (hi - lo) e1 ltac:(lra) LH ltac:(unfold e1; lra)) as [n2 H2]. destruct (@pow_small (1 - cp) 1 ep ltac:(lra) ltac:(lra) Ep) as [n3 H3].
  exists (n1 + n2 + n3)%nat. intros os HO K1 K2 K3.
  destruct (@run_ok nS nA gamma rows b HS HB HR NE lp lr gp gr gv HG lo hi lrv lrp lrr Qp Qr Fv Fp Fr Rew Hg ES vh VH os y wv wp wr D HO HT HP HRI D0 V0) as (y' & wv' & wp' & wr' & E & T & A1 & A2 & A3).
  exists y', wv', wp', wr'. split; [exact E|]. split; [exact T|]. intros s a Hs Ha VIS.
  assert (X := @q_close nS nA gamma rows HB Hg vh wv' wp' wr' s a e1 ep ev V Hs Ha). eapply Rle_trans; [apply X; auto; try lra|].
  - rewrite A2 by auto. match goal with |- Rabs (?m + ?t - ?m) <= _ => replace (m + t - m) with t by ring end. eapply Rle_trans; [apply (@geometric _ cr _ (hi - lo))|apply H2; lia]; auto.
    + split; [now apply share_low; [apply Fr| |]|apply (share_bounds (at_sa s a) Fr NE (Rle_refl N))].
    + assert (lo <= wmean (at_sa s a) t_r rows <= hi) by (apply wmean_bounds; auto). pose proof (HRI s a Hs Ha). unfold Rabs. destruct (Rcase_abs _); lra.
  - intros k Hk. rewrite A1 by auto. match goal with |- Rabs (?m + ?t - ?m) <= _ => replace (m + t - m) with t by ring end. eapply Rle_trans; [apply (@geometric _ cp _ 1)|apply H3; lia]; auto.
    + split; [apply share_low; [apply Fp|fold N; nra|auto]|apply (share_bounds (at_sa s a) Fp NE (@N_le nS rows HS NE))].
    + assert (0 <= wmean (at_sa s a) (hit k) rows <= 1) by (apply wmean_bounds; auto; intros x _ _; unfold hit; destruct (Nat.eqb _ _); lra). pose proof (HP s a k Hs Ha Hk). unfold Rabs. destruct (Rcase_abs _); lra.
  - intros k Hk. split; [|now apply VB]. eapply Rle_trans; [apply (A3 k Hk)|]. apply H1. lia.
  - assert (B1 : INR nS * (ep * (V + ev)) <= e1). { apply Rle_trans with (INR nS * (ep * (V + 1))); [apply Rmult_le_compat_l; [lra|]; apply Rmult_le_compat_l; lra|]. right. unfold ep. field. split; lra. }
    assert (0 <= INR nS * (ep * (V + ev))) by (apply Rmult_le_pos; [lra|]; apply Rmult_le_pos; lra). assert (gamma * (INR nS * (ep * (V + ev)) + ev) <= 1 * (e1 + e1)) by (apply Rmult_le_compat; lra). unfold e1 in *. lra.
Qed.
End Conv.

(** * The data set's own policy, and improvement *)
Lemma wsum_actions : forall nS nA rows s h, bounded nS nA rows -> wsum (at_s s) h rows = total (map (fun a => wsum (at_sa s a) h rows) (seq 0 nA)).
Proof.
  intros nS nA rows s h HB. induction rows as [|x rows IH]; [unfold wsum; cbn [map]; rewrite (@total_ext _ _ (fun _ => 0)) by auto; rewrite total_const; cbn; ring|].
  assert (E : forall P, wsum P h (x :: rows) = (if P x then cw x * h x else 0) + wsum P h rows) by (intros; unfold wsum; cbn [map]; now rewrite total_cons). rewrite E, IH by (intros y Hy; apply HB; now right).
  rewrite (@total_ext _ (fun a => wsum (at_sa s a) h (x :: rows)) (fun a => (if at_sa s a x then cw x * h x else 0) + wsum (at_sa s a) h rows)) by (intros; apply E). rewrite total_plus. f_equal. destruct (HB x (or_introl eq_refl)) as (_ & B & _). unfold at_s, at_sa. destruct (Nat.eqb (t_s x) s); cbn [andb].
  - rewrite (@total_pick _ nA (t_a x) B); [now rewrite Nat.eqb_refl|]. intros k Hk. destruct (Nat.eqb_spec (t_a x) k); congruence.
  - rewrite total_const. ring.
Qed.
Lemma own_policy : forall nS nA rows s h, bounded nS nA rows -> wmean (at_s s) h rows = total (map (fun a => wsum (at_sa s a) (fun _ => 1) rows / wsum (at_s s) (fun _ => 1) rows * wmean (at_sa s a) h rows) (seq 0 nA)).
Proof.
  intros nS nA rows s h HB. unfold wmean at 1. rewrite (@wsum_actions nS nA) by auto. unfold Rdiv at 1. rewrite Rmult_comm, <- total_scal. apply total_ext. intros a _. rewrite (wsum_wmean (at_sa s a) h). unfold Rdiv. ring.
Qed.
Lemma mean_le_max : forall nS nA rows s h M, bounded nS nA rows -> (exists x, In x rows /\ at_s s x = true) -> (forall a, (a < nA)%nat -> (exists x, In x rows /\ at_sa s a x = true) -> wmean (at_sa s a) h rows <= M) -> wmean (at_s s) h rows <= M.
Proof.
  intros nS nA rows s h M HB (x & Hx & E) H. pose proof (weight_in (at_s s) rows x Hx E) as W. apply (Rmult_le_reg_l (wsum (at_s s) (fun _ => 1) rows)); [lra|]. rewrite <- wsum_wmean. rewrite !(@wsum_actions nS nA) by auto. rewrite Rmult_comm, <- total_scal. apply total_le. intros a Ha. apply in_seq in Ha.
  rewrite (wsum_wmean (at_sa s a) h). destruct (weight_case (at_sa s a) rows) as [Z|VIS]; [rewrite !(weight_zero _ _ Z); lra|]. specialize (H a ltac:(lia) VIS). pose proof (weight_nonneg (at_sa s a) rows). nra.
Qed.
Lemma filter_mean : forall g rows s h, wmean (at_s s) h (filter (follows g) rows) = wmean (at_sa s (g s)) h rows.
Proof.
  intros g rows s h. assert (E : forall h, wsum (at_s s) h (filter (follows g) rows) = wsum (at_sa s (g s)) h rows).
  { clear h. intros h. induction rows as [|x rows IH]; auto. unfold wsum in *. cbn [filter map]. unfold follows at 1, at_sa at 1. destruct (Nat.eqb_spec (t_s x) s) as [E|E].
    - rewrite E. cbn [andb]. destruct (Nat.eqb (t_a x) (g s)); cbn [map]; rewrite ?total_cons, ?IH; [|ring]. unfold at_s at 1. rewrite E, Nat.eqb_refl. ring.
    - cbn [andb]. rewrite total_cons, <- IH. destruct (Nat.eqb (t_a x) (g (t_s x))); cbn [map]; [|ring]. rewrite total_cons. unfold at_s at 1. destruct (Nat.eqb_spec (t_s x) s); [congruence|ring]. }
  unfold wmean. now rewrite !E.
Qed.
Lemma min_exists : forall n (f : nat -> R), (1 <= n)%nat -> exists i, (i < n)%nat /\ forall j, (j < n)%nat -> f i <= f j.
Proof.
  intros n f. induction n as [|n IH]; intros H; [lia|]. destruct n as [|n]; [exists 0%nat; split; [lia|]; intros j Hj; replace j with 0%nat by lia; lra|]. destruct IH as (i & Hi & Hm); [lia|]. destruct (Rle_dec (f i) (f (S n))) as [C|C].
  - exists i. split; [lia|]. intros j Hj. destruct (Nat.eq_dec j (S n)) as [->|]; auto. apply Hm. lia.
  - exists (S n). split; [lia|]. intros j Hj. destruct (Nat.eq_dec j (S n)) as [->|]; [lra|]. specialize (Hm j ltac:(lia)). lra.
Qed.
Lemma improves : forall nS nA gamma rows vh u g d, (1 <= nS)%nat -> bounded nS nA rows -> 0 <= gamma < 1 -> every_pair nS nA rows -> (1 <= nA)%nat -> (forall x, In x rows -> t_done x = false) ->
  data_values nS gamma rows vh -> data_values nS gamma (filter (follows g) rows) u -> (forall s, (s < nS)%nat -> (g s < nA)%nat /\ forall a, (a < nA)%nat -> q_lim gamma rows vh s a <= q_lim gamma rows vh s (g s) + d) ->
  forall s, (s < nS)%nat -> vh s - d / (1 - gamma) <= u s.
Proof.
  intros nS nA gamma rows vh u g d HS HB Hg EP HA ND VH UH GR. destruct (@min_exists nS (fun s => u s - vh s) HS) as (s0 & Hs0 & Hm).
  assert (VIS : forall s a, (s < nS)%nat -> (a < nA)%nat -> exists x, In x rows /\ at_sa s a x = true). { intros s a Hs Ha. destruct (EP s a Hs Ha) as (x & Hx & E1 & E2). exists x. split; auto. unfold at_sa. now rewrite E1, E2, !Nat.eqb_refl. }
  assert (K : u s0 - vh s0 >= - d + gamma * (u s0 - vh s0)).
  { destruct (GR s0 Hs0) as [Ga Gm]. assert (U : u s0 = wmean (at_sa s0 (g s0)) (fun x => t_r x + gamma * u (t_next x)) rows).
    { rewrite (UH s0 Hs0), filter_mean. apply wmean_ext. intros x Hx _. now rewrite ND. }
    assert (V : vh s0 <= q_lim gamma rows vh s0 (g s0) + d).
    { rewrite (VH s0 Hs0). rewrite (@wmean_ext _ _ (fun x => t_r x + gamma * vh (t_next x))) by (intros x Hx _; now rewrite ND). apply (@mean_le_max nS nA); auto; [|intros a Ha _; exact (Gm a Ha)]. destruct (VIS s0 0%nat Hs0 ltac:(lia)) as (x & Hx & E). exists x. split; auto. unfold at_sa in E. apply andb_true_iff in E. apply E. }
    assert (W : gamma * (u s0 - vh s0) <= u s0 - q_lim gamma rows vh s0 (g s0)).
    { rewrite U at 2. unfold q_lim. replace (wmean (at_sa s0 (g s0)) (fun x => t_r x + gamma * u (t_next x)) rows - wmean (at_sa s0 (g s0)) (fun x => t_r x + gamma * vh (t_next x)) rows) with (wmean (at_sa s0 (g s0)) (fun x => gamma * (u (t_next x) - vh (t_next x))) rows).
      - apply (@wmean_bounds (at_sa s0 (g s0)) (fun x => gamma * (u (t_next x) - vh (t_next x))) rows _ (gamma * bound nS 1 (fun s _ => u s - vh s))); auto. intros x Hx _. destruct (HB x Hx) as (_ & _ & C). split; [apply Rmult_le_compat_l; [lra|]; now apply Hm|]. apply Rmult_le_compat_l; [lra|]. eapply Rle_trans; [apply Rle_abs|]. exact (@bound_ok nS 1 (fun s _ => u s - vh s) _ 0%nat C (le_n 1)).
      - rewrite (@wmean_ext _ (fun x => gamma * (u (t_next x) - vh (t_next x))) (fun x => (t_r x + gamma * u (t_next x)) + - 1 * (t_r x + gamma * vh (t_next x)))) by (intros; ring). rewrite wmean_plus, wmean_scal. ring. }
    lra. }
  assert (M : - d / (1 - gamma) <= u s0 - vh s0). { apply (Rmult_le_reg_r (1 - gamma)); [lra|]. unfold Rdiv. rewrite Rmult_assoc, Rinv_l by lra. lra. }
  intros s Hs. specialize (Hm s Hs). unfold Rdiv in *. lra.
Qed.
