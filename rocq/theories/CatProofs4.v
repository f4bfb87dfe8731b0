(** Convergence of distributional TD learning with a target network. *)
From Coq Require Import List Lia Bool Arith Reals Lra.
From Verif Require Import PyCommon CommonProofs UtilsModel UtilsSpec UtilsProofs2 UtilsProofs3 DistModel DistSpec DistProofs DistProofs2 LossModel LossProofs TDModel TDSpec CoreModel CoreSpec LearnModel LearnProofs LearnProofs3 LearnProofs5 MbModel MbProofs DpgProofs CatModel CatSpec CatProofs CatProofs2 CatProofs3.
Import ListNotations.
Set Implicit Arguments.
Local Open Scope R_scope.

Lemma uniform_n : forall n (P : nat -> nat -> Prop), (forall s, (s < n)%nat -> exists N, forall i, (N <= i)%nat -> P s i) -> exists N, forall i, (N <= i)%nat -> forall s, (s < n)%nat -> P s i.
Proof.
  induction n as [|n IH]; intros P H; [exists 0%nat; intros; lia|]. destruct (IH P) as (N & HN); [intros; apply H; lia|]. destruct (H n) as (M & HM); [lia|]. exists (max N M). intros i Hi s Hs. destruct (Nat.eq_dec s n) as [->|]; [apply HM; lia|apply HN; lia].
Qed.

(** * Rounds *)
Section Rounds.
Variable step : csys -> nat -> csys -> Prop.
Variables (gamma c : R) (G : R -> Prop) (Rq Q : R -> csys -> Prop).
Hypothesis Hg : 0 <= gamma < 1.
Hypothesis RD : forall D y, G D -> Rq D y -> G (gamma * D + c) /\ exists N, forall n, (N <= n)%nat -> exists y', step y n y' /\ Q (gamma * D + c) y'.
Hypothesis QR : forall D y, Q D y -> Rq D y.
Fixpoint dn (m : nat) (D : R) : R := match m with O => D | S m' => dn m' (gamma * D + c) end.
Lemma rounds : forall m D y, G D -> Rq D y -> after_rounds step (S m) (Q (dn (S m) D)) y.
Proof.
  induction m as [|m IH]; intros D y HG HD; destruct (RD HG HD) as (G' & N & HN); exists N; intros n Hn; destruct (HN n Hn) as (y' & S & HQ); exists y'; (split; [exact S|]).
  - exact HQ.
  - apply IH; auto.
Qed.
Lemma dn_closed : forall m D, dn m D = gamma ^ m * D + c * (1 - gamma ^ m) / (1 - gamma).
Proof. induction m as [|m IH]; intros D; cbn [dn pow]; [field; lra|]. rewrite IH. field. lra. Qed.
Lemma dn_bound : forall m D, 0 <= c -> dn m D <= gamma ^ m * D + c / (1 - gamma).
Proof.
  intros m D Hc. rewrite dn_closed. apply Rplus_le_compat_l. unfold Rdiv. apply Rmult_le_compat_r; [left; apply Rinv_0_lt_compat; lra|]. assert (P := pow_le gamma m ltac:(lra)). nra.
Qed.
End Rounds.
Lemma after_rounds_imp : forall step m (P P' : csys -> Prop), (forall y, P y -> P' y) -> forall y, after_rounds step m P y -> after_rounds step m P' y.
Proof. intros step m P P' H. induction m as [|m IH]; intros y; cbn; auto. intros (N & HN). exists N. intros n Hn. destruct (HN n Hn) as (y' & S & A). exists y'. auto. Qed.

Section Conv.
Variables nS nA K : nat.
Variables lo hi gamma lr : R.
Hypotheses (HK : (2 <= K)%nat) (Hlh : lo < hi).
Variables (rows : list row) (b : fbatch nat) (alg : calg) (g : list R -> fbatch nat -> list R -> list R) (sub : nat -> nat -> bool).
Hypotheses (HB : rows_in nS nA gamma rows) (HR : holds_rows nA alg rows b) (NE : rows <> []) (HG : ce_grads nS nA K lo hi alg g rows b).
Hypotheses (AP : all_pairs nS nA rows) (Hlr : 0 < lr < 1) (Hg : 0 <= gamma < 1).
Notation step := (cstep nS nA K lo hi alg g sub).
Notation run := (crun nS nA K lo hi alg g sub).
Notation nets := (nets nS nA K lr sub).
Notation tbar wt s a k := (pair_mean s a (fun x => row_target nA K lo hi wt x k) rows).

Lemma run_app : forall os os' y, run y (os ++ os') = match run y os with (y1, Ok _) => run y1 os' | (y1, Err e) => (y1, Err e) end.
Proof. induction os as [|o os IH]; intros os' y; cbn [app crun]; auto. destruct (step y o) as [y1 [u|e]]; auto. Qed.
Definition wof (y : csys) : list R := match unwrap (f_params (l_func (c_q y))) with Some w => w | None => [] end.
Lemma wof_nets : forall y w wt, nets y w wt -> wof y = w.
Proof. intros y w wt (_ & N & _). unfold wof. rewrite N. reflexivity. Qed.
Lemma count_le : forall s a, pair_sum s a (fun _ => 1) rows <= INR (length rows).
Proof. intros s a. unfold pair_sum. rewrite <- (Rmult_1_r (INR (length rows))), <- (total_const 1 rows). apply total_le. intros x _. destruct (at_pair s a x); lra. Qed.
Lemma N_pos : 0 < INR (length rows). Proof. clear - NE. apply lt_0_INR. destruct rows; [congruence|cbn; lia]. Qed.
Lemma tbar_one : forall wt s a, (s < nS)%nat -> (a < nA)%nat -> is_dist K (fun k => tbar wt s a k).
Proof. intros wt s a Hs Ha. apply (@pm_dist K rows s a (AP Hs Ha) (fun x k => row_target nA K lo hi wt x k)). intros x _ _ _. split; [intros k Hk; left; now apply target_pos|now apply target_one]. Qed.
Lemma pair_sum_pos : forall s a h, (s < nS)%nat -> (a < nA)%nat -> (forall x, 0 < h x) -> 0 < pair_sum s a h rows.
Proof.
  intros s a h Hs Ha H. destruct (AP Hs Ha) as (x & Hx & E1 & E2). unfold pair_sum. assert (P : forall l, 0 <= total (map (fun x => if at_pair s a x then h x else 0) l)) by (induction l as [|y l IH]; cbn [map]; [cbn; lra|rewrite total_cons; specialize (H y); destruct (at_pair s a y); lra]).
  assert (Q : forall l, In x l -> 0 < total (map (fun x => if at_pair s a x then h x else 0) l)); [|exact (Q rows Hx)].
  induction l as [|y l IH]; [intros []|]. intros [Hy|Hy]; cbn [map]; rewrite total_cons.
  - subst y. unfold at_pair at 1. rewrite E1, E2, !Nat.eqb_refl. cbn [andb]. specialize (P l). specialize (H x). lra.
  - specialize (IH Hy). specialize (H y). destruct (at_pair s a y); lra.
Qed.
Lemma tbar_pos : forall wt s a k, (s < nS)%nat -> (a < nA)%nat -> (k < K)%nat -> 0 < tbar wt s a k.
Proof. intros wt s a k Hs Ha Hk. unfold pair_mean. apply Rdiv_lt_0_compat; apply pair_sum_pos; auto; [intros x; now apply target_pos|intros; lra]. Qed.
(** The sequence of updates. *)
Section Updates.
Variables (y : csys) (w wt : list R).
Hypotheses (HN : nets y w wt) (HT : c_targ y <> None) (U : uses_next nA K lo hi alg wt rows).
Let Y (i : nat) : csys := fst (run y (repeat (CU b) i)).
Lemma repeat_snoc : forall i, repeat (CU b) (S i) = repeat (CU b) i ++ [CU b].
Proof. induction i as [|i IH]; auto. cbn [repeat app] in *. now rewrite <- IH. Qed.
Lemma Y_ok : forall i, run y (repeat (CU b) i) = (Y i, Ok tt) /\ nets (Y i) (wof (Y i)) wt /\ c_targ (Y i) <> None.
Proof.
  induction i as [|i (IH1 & IH2 & IH3)].
  - unfold Y. cbn. split; auto. rewrite (wof_nets HN). auto.
  - destruct (@step_update nS nA K lo hi gamma lr HK Hlh rows b alg g sub HB HR NE HG _ _ _ IH2 U) as (y' & w' & wt' & E & N' & T1 & T2 & _). specialize (T1 IH3). subst wt'.
    assert (R : run y (repeat (CU b) (S i)) = (y', Ok tt)). { rewrite repeat_snoc, run_app, IH1. cbn [crun]. now rewrite E. }
    assert (EY : Y (S i) = y') by (unfold Y; now rewrite R). rewrite EY. split; auto. rewrite (wof_nets N'). split; auto. congruence.
Qed.
Lemma Y_step : forall i s a k, (s < nS)%nat -> (a < nA)%nat -> (k < K)%nat ->
  logit nA K (wof (Y (S i))) s a k = logit nA K (wof (Y i)) s a k + lr * pair_sum s a (fun _ => 1) rows / INR (length rows) * (tbar wt s a k - soft K (logit nA K (wof (Y i)) s a) k).
Proof.
  intros i s a k Hs Ha Hk. destruct (Y_ok i) as (E1 & N1 & T1). destruct (@step_update nS nA K lo hi gamma lr HK Hlh rows b alg g sub HB HR NE HG _ _ _ N1 U) as (y' & w' & wt' & E & N' & _ & _ & SE).
  assert (R : run y (repeat (CU b) (S i)) = (y', Ok tt)). { rewrite repeat_snoc, run_app, E1. cbn [crun]. now rewrite E. } assert (EY : Y (S i) = y') by (unfold Y; now rewrite R). rewrite EY, (wof_nets N'), SE by auto. clear SE.
  pose proof (pair_count rows (AP Hs Ha)) as C. pose proof N_pos as NP. f_equal. rewrite pair_sum_minus. change (soft K (logit nA K (wof (Y i)) s a) k) with (prob nA K (wof (Y i)) s a k).
  rewrite (@pair_sum_ext rows s a (fun _ => prob nA K (wof (Y i)) s a k) (fun _ => prob nA K (wof (Y i)) s a k * 1)) by (intros; ring). rewrite pair_sum_scal. unfold pair_mean. field. split; lra.
Qed.
Lemma inner : forall kap, 0 < kap -> exists N, forall n, (N <= n)%nat -> exists y' w', run y (repeat (CU b) n) = (y', Ok tt) /\ nets y' w' wt /\ c_targ y' <> None /\
  forall s a k, (s < nS)%nat -> (a < nA)%nat -> (k < K)%nat -> Rabs (tbar wt s a k - prob nA K w' s a k) <= kap.
Proof.
  intros kap Hk. destruct (@uniform_n nS (fun s i => forall a, (a < nA)%nat -> forall k, (k < K)%nat -> Rabs (tbar wt s a k - prob nA K (wof (Y i)) s a k) <= kap)) as (N & HN').
  - intros s Hs. destruct (@uniform_n nA (fun a i => forall k, (k < K)%nat -> Rabs (tbar wt s a k - prob nA K (wof (Y i)) s a k) <= kap)) as (N & HN').
    + intros a Ha. pose proof (pair_count rows (AP Hs Ha)) as C. pose proof N_pos as NP. pose proof (count_le s a) as CL.
      refine (@descends K ltac:(lia) (fun k => tbar wt s a k) (fun k Hk0 => @tbar_pos wt s a k Hs Ha Hk0) (proj2 (tbar_one wt Hs Ha)) (fun i => logit nA K (wof (Y i)) s a) (lr * pair_sum s a (fun _ => 1) rows / INR (length rows)) _ _ kap Hk).
      * split; [apply Rdiv_lt_0_compat; auto; apply Rmult_lt_0_compat; lra|]. apply (Rmult_lt_reg_r (INR (length rows))); auto. unfold Rdiv. rewrite Rmult_assoc, Rinv_l by lra. nra.
      * intros i k Hk0. now apply Y_step.
    + exists N. intros i Hi a Ha k Hk0. now apply HN'.
  - exists N. intros n Hn. destruct (Y_ok n) as (E & N1 & T1). exists (Y n), (wof (Y n)). split; [exact E|]. split; [exact N1|]. split; [exact T1|]. intros s a k Hs Ha Hk0. now apply HN'.
Qed.
(** A round. *)
Lemma inner_round : forall kap, 0 < kap -> exists N, forall n, (N <= n)%nat -> exists y' w', run y (round_of b n) = (y', Ok tt) /\ nets y' w' w' /\ c_targ y' <> None /\
  forall s a k, (s < nS)%nat -> (a < nA)%nat -> (k < K)%nat -> Rabs (tbar wt s a k - prob nA K w' s a k) <= kap.
Proof.
  intros kap Hk. destruct (inner Hk) as (N & H). exists N. intros n Hn. destruct (H n Hn) as (y1 & w' & E & N1 & T1 & B). destruct (@step_sync nS nA K lo hi lr alg g sub y1 w' wt N1 T1) as (y2 & E2 & N2 & T2). exists y2, w'. split; [|auto]. unfold round_of. rewrite run_app, E. cbn [crun]. now rewrite E2.
Qed.
End Updates.

(** * The targets and the projections *)
Notation FL := (2 * INR K * eps16 * (hi - lo)).
Lemma target_dist : forall wt x, is_dist K (row_target nA K lo hi wt x).
Proof. intros wt x. split; [intros k Hk; left; now apply target_pos|now apply target_one]. Qed.
Lemma floored_le : forall m k, is_dist K m -> (k < K)%nat -> floored K m k <= m k + / 10 ^ 16.
Proof.
  intros m k [M T] Hk. unfold floored. rewrite E16. pose proof eps_pos as EP. assert (S1 : 1 <= total (map (fun j => Rmax (m j) eps16) (seq 0 K))) by (rewrite <- T; apply total_le; intros; apply Rmax_l).
  assert (R0 : 0 <= Rmax (m k) eps16) by (eapply Rle_trans; [left; exact EP|apply Rmax_r]). apply Rle_trans with (Rmax (m k) eps16).
  - unfold Rdiv. rewrite <- (Rmult_1_r (Rmax (m k) eps16)) at 2. apply Rmult_le_compat_l; auto. rewrite <- Rinv_1. apply Rinv_le_contravar; lra.
  - specialize (M k Hk). apply Rmax_lub; lra.
Qed.
Lemma target_near : forall wt x, near K lo hi FL (row_target nA K lo hi wt x) (proj K lo hi (w_r x) (w_in x) (prob nA K wt (w_next x) (w_anext x))).
Proof.
  intros wt x. assert (PD : is_dist K (proj K lo hi (w_r x) (w_in x) (prob nA K wt (w_next x) (w_anext x)))) by (apply proj_dist; auto; now apply prob_dist). apply near_upper; auto; [apply target_dist|left; apply eps_pos|]. intros k Hk. unfold row_target. rewrite <- E16. now apply floored_le.
Qed.
Lemma tbar_near : forall wt s a, (s < nS)%nat -> (a < nA)%nat -> near K lo hi FL (fun k => tbar wt s a k) (bell K lo hi rows (prob nA K wt) s a).
Proof. intros wt s a Hs Ha. apply (@pm_near K lo hi rows s a (AP Hs Ha) FL (fun x k => row_target nA K lo hi wt x k) (fun x => proj K lo hi (w_r x) (w_in x) (prob nA K wt (w_next x) (w_anext x)))). intros x _ _ _. apply target_near. Qed.
Lemma entries_near : forall wt w' s a kap, (s < nS)%nat -> (a < nA)%nat -> 0 < kap -> (forall k, (k < K)%nat -> Rabs (tbar wt s a k - prob nA K w' s a k) <= kap / (2 * INR K * (hi - lo))) -> near K lo hi kap (prob nA K w' s a) (fun k => tbar wt s a k).
Proof.
  intros wt w' s a kap Hs Ha Hk H. assert (KP : 0 < INR K) by (apply lt_0_INR; lia). assert (D0 : 0 < 2 * INR K * (hi - lo)) by nra. apply near_mono with (2 * INR K * (kap / (2 * INR K * (hi - lo))) * (hi - lo)); [right; field; split; lra|].
  apply near_upper; auto; [now apply prob_dist|now apply tbar_one|left; apply Rdiv_lt_0_compat; auto|]. intros k Hk0. specialize (H k Hk0). unfold Rabs in H. destruct (Rcase_abs _); lra.
Qed.
Lemma FL_pos : 0 < FL. Proof. assert (0 < INR K) by (apply lt_0_INR; lia). pose proof eps_pos. repeat apply Rmult_lt_0_compat; lra. Qed.
Definition kap_of (e : R) : R := e / (2 * INR K * (hi - lo)).
Lemma kap_pos : forall e, 0 < e -> 0 < kap_of e.
Proof. intros e He. assert (0 < INR K) by (apply lt_0_INR; lia). apply Rdiv_lt_0_compat; auto. repeat apply Rmult_lt_0_compat; lra. Qed.

Notation rstep := (fun y n y' => run y (round_of b n) = (y', Ok tt)).
(** * Evaluation *)
Section Eval.
Variable e : nat -> nat -> nat -> R.
Hypothesis HE : data_dists nS nA K lo hi rows e.
Hypothesis HA : alg = CSarsa.
Definition targ_near (D : R) (y : csys) : Prop := exists w wt, nets y w wt /\ c_targ y <> None /\ forall s a, (s < nS)%nat -> (a < nA)%nat -> near K lo hi D (prob nA K wt s a) (e s a).
Definition both_near (D : R) (y : csys) : Prop := exists w, nets y w w /\ c_targ y <> None /\ forall s a, (s < nS)%nat -> (a < nA)%nat -> near K lo hi D (prob nA K w s a) (e s a).
Lemma eval_round : forall kap D y, 0 < kap -> 0 <= D -> targ_near D y -> 0 <= gamma * D + (FL + kap) /\ exists N, forall n, (N <= n)%nat -> exists y', rstep y n y' /\ both_near (gamma * D + (FL + kap)) y'.
Proof.
  intros kap D y Hk HD (w & wt & N1 & T1 & C). pose proof FL_pos as FP. split; [assert (0 <= gamma * D) by (apply Rmult_le_pos; lra); lra|]. assert (U : uses_next nA K lo hi alg wt rows) by (rewrite HA; exact I).
  destruct (inner_round N1 T1 U (kap_pos Hk)) as (N & H). exists N. intros n Hn. destruct (H n Hn) as (y' & w' & E & N2 & T2 & B). exists y'. split; auto. exists w'. split; auto. split; auto. intros s a Hs Ha.
  assert (SV : solves K lo hi nS nA rows e) by (now apply solves_data). assert (A1 := @entries_near wt w' s a kap Hs Ha Hk (fun k Hk0 => B s a k Hs Ha Hk0)). assert (A2 := @tbar_near wt s a Hs Ha).
  assert (A3 : near K lo hi (gamma * D) (bell K lo hi rows (prob nA K wt) s a) (bell K lo hi rows e s a)). { apply (@bell_close K lo hi HK Hlh nS nA gamma rows HB AP D (prob nA K wt) e HD); auto; [intros s0 a0 _ _; now apply prob_dist|apply SV]. }
  assert (A4 : near K lo hi (gamma * D) (bell K lo hi rows (prob nA K wt) s a) (e s a)). { apply (@near_ext K lo hi HK (gamma * D) (bell K lo hi rows (prob nA K wt) s a) (bell K lo hi rows e s a)); [auto| |exact A3]. intros k Hk0. symmetry. now apply SV. }
  apply near_mono with (kap + (FL + gamma * D)); [lra|]. eapply near_trans; [exact A1|]. eapply near_trans; [exact A2|exact A4].
Qed.
Lemma eval_converges : forall eps, 0 < eps -> exists M0, forall M y w wt, (M0 <= M)%nat -> nets y w wt -> c_targ y <> None -> after_rounds rstep M (both_near (eps + FL / (1 - gamma))) y.
Proof.
  intros eps He. set (kap := eps / 2 * (1 - gamma)). assert (Hk : 0 < kap) by (unfold kap; apply Rmult_lt_0_compat; lra). pose proof FL_pos as FP. destruct (@pow_small gamma (2 * (hi - lo)) (eps / 2) Hg) as (M0 & HM); [lra|lra|]. exists (S M0). intros M y w wt HM0 N1 T1. destruct M as [|M]; [lia|].
  assert (T0 : targ_near (2 * (hi - lo)) y). { exists w, wt. split; auto. split; auto. intros s a Hs Ha. apply near_diam; auto; [now apply prob_dist|now apply HE]. }
  assert (X := @rounds rstep gamma (FL + kap) (fun D => 0 <= D) targ_near both_near (fun D y => @eval_round kap D y Hk) (fun D y '(ex_intro _ w (conj N (conj T C))) => ex_intro _ w (ex_intro _ w (conj N (conj T C)))) M (2 * (hi - lo)) y ltac:(lra) T0).
  refine (@after_rounds_imp rstep (S M) _ _ _ y X). intros y' (w' & N' & T' & C'). exists w'. split; auto. split; auto. intros s a Hs Ha. eapply near_mono; [|now apply C']. eapply Rle_trans; [apply dn_bound; lra|]. specialize (HM (S M) ltac:(lia)). unfold kap. replace ((FL + eps / 2 * (1 - gamma)) / (1 - gamma)) with (FL / (1 - gamma) + eps / 2) by (field; lra). lra.
Qed.
End Eval.

(** * Control *)
Section Control.
Variables (q : nat -> nat -> R) (margin : R).
Hypotheses (HQ : data_q nS nA rows q) (RF : range_fits K lo hi rows) (GB : greedy_by nA margin rows q).
Notation mo := (mean_of nA K lo hi).
Lemma uses_close : forall D wt, 2 * D < margin -> (forall s a, (s < nS)%nat -> (a < nA)%nat -> Rabs (mo wt s a - q s a) <= D) -> uses_next nA K lo hi alg wt rows.
Proof.
  intros D wt HD C. destruct alg; [exact I|]. intros x a Hx Ha Na. destruct (HB x Hx) as (_ & _ & A & B & _). assert (C1 := C (w_next x) a A Ha). assert (C2 := C (w_next x) (w_anext x) A B). assert (G1 := @GB x a Hx Ha Na). unfold Rabs in C1, C2. destruct (Rcase_abs _); destruct (Rcase_abs _); lra.
Qed.
Definition targ_mean (D : R) (y : csys) : Prop := exists w wt, nets y w wt /\ c_targ y <> None /\ forall s a, (s < nS)%nat -> (a < nA)%nat -> Rabs (mo wt s a - q s a) <= D.
Definition both_mean (D : R) (y : csys) : Prop := exists w, nets y w w /\ c_targ y <> None /\ forall s a, (s < nS)%nat -> (a < nA)%nat -> Rabs (mo w s a - q s a) <= D.
Lemma control_round : forall kap D y, 0 < kap -> 2 * (FL + kap) < margin * (1 - gamma) -> 0 <= D /\ 2 * D < margin -> targ_mean D y ->
  (0 <= gamma * D + (FL + kap) /\ 2 * (gamma * D + (FL + kap)) < margin) /\ exists N, forall n, (N <= n)%nat -> exists y', rstep y n y' /\ both_mean (gamma * D + (FL + kap)) y'.
Proof.
  intros kap D y Hk Hc [D0 HD] (w & wt & N1 & T1 & C). pose proof FL_pos as FP. split. { split; [assert (0 <= gamma * D) by (apply Rmult_le_pos; lra); lra|nra]. }
  destruct (inner_round N1 T1 (@uses_close D wt HD C) (kap_pos Hk)) as (N & H). exists N. intros n Hn. destruct (H n Hn) as (y' & w' & E & N2 & T2 & B). exists y'. split; auto. exists w'. split; auto. split; auto. intros s a Hs Ha.
  assert (A1 := @entries_near wt w' s a kap Hs Ha Hk (fun k Hk0 => B s a k Hs Ha Hk0)). assert (A2 := @tbar_near wt s a Hs Ha). assert (A := near_value (near_trans A1 A2)). fold (mo w' s a) in A.
  assert (EB : ev K (bell K lo hi rows (prob nA K wt) s a) (atom K lo hi) = pair_mean s a (fun x => w_r x + w_in x * mo wt (w_next x) (w_anext x)) rows).
  { unfold bell. rewrite (@pm_ev K rows s a (fun x => proj K lo hi (w_r x) (w_in x) (prob nA K wt (w_next x) (w_anext x))) (atom K lo hi)). apply pm_ext. intros x Hx _ _. destruct (HB x Hx) as (_ & _ & _ & _ & I0). destruct (@RF x Hx). apply proj_mean_fits; auto; [now apply prob_dist|lra]. }
  change (Rabs (mo w' s a - ev K (bell K lo hi rows (prob nA K wt) s a) (atom K lo hi)) <= kap + FL) in A. rewrite EB in A.
  assert (A3 : Rabs (pair_mean s a (fun x => w_r x + w_in x * mo wt (w_next x) (w_anext x)) rows - q s a) <= gamma * D).
  { rewrite (@HQ s a Hs Ha). rewrite <- (@pm_minus rows s a (AP Hs Ha)). apply (@pm_bound rows s a (AP Hs Ha)). intros x Hx _ _. destruct (HB x Hx) as (_ & _ & X1 & X2 & X3). replace (w_r x + w_in x * mo wt (w_next x) (w_anext x) - (w_r x + w_in x * q (w_next x) (w_anext x))) with (w_in x * (mo wt (w_next x) (w_anext x) - q (w_next x) (w_anext x))) by ring.
    rewrite Rabs_mult, (Rabs_right (w_in x)) by lra. apply Rmult_le_compat; try lra; [apply Rabs_pos|now apply C]. }
  replace (mo w' s a - q s a) with ((mo w' s a - pair_mean s a (fun x => w_r x + w_in x * mo wt (w_next x) (w_anext x)) rows) + (pair_mean s a (fun x => w_r x + w_in x * mo wt (w_next x) (w_anext x)) rows - q s a)) by ring. eapply Rle_trans; [apply Rabs_triang|]. lra.
Qed.
Lemma control_converges : forall eps, 0 < eps -> 2 * FL < margin * (1 - gamma) -> exists M0, forall M y w wt, (M0 <= M)%nat -> nets y w wt -> c_targ y <> None -> (forall s a, (s < nS)%nat -> (a < nA)%nat -> 2 * Rabs (mo wt s a - q s a) < margin) ->
  after_rounds rstep M (both_mean (eps + FL / (1 - gamma))) y.
Proof.
  intros eps He Hm. set (m2 := (margin * (1 - gamma) - 2 * FL) / 4). set (kap := Rmin (eps / 2 * (1 - gamma)) m2). assert (Hk : 0 < kap) by (unfold kap, m2; apply Rmin_pos; [apply Rmult_lt_0_compat; lra|lra]). pose proof FL_pos as FP.
  assert (K1 : kap <= eps / 2 * (1 - gamma)) by apply Rmin_l. assert (K2 : kap <= m2) by apply Rmin_r. assert (Hc : 2 * (FL + kap) < margin * (1 - gamma)) by (unfold m2 in K2; lra). assert (MP : 0 < margin) by nra.
  destruct (@pow_small gamma margin (eps / 2) Hg) as (M0 & HM); [lra|lra|]. exists (S M0). intros M y w wt HM0 N1 T1 C. destruct M as [|M]; [lia|].
  assert (EX : exists D, (0 <= D /\ 2 * D < margin) /\ targ_mean D y).
  { assert (B : exists D, (0 <= D /\ 2 * D < margin) /\ forall s, (s < nS)%nat -> forall a, (a < nA)%nat -> Rabs (mo wt s a - q s a) <= D).
    { assert (ONE : forall s, (s < nS)%nat -> exists D, (0 <= D /\ 2 * D < margin) /\ forall a, (a < nA)%nat -> Rabs (mo wt s a - q s a) <= D).
      { intros s Hs. assert (Z : forall m, (m <= nA)%nat -> exists D, (0 <= D /\ 2 * D < margin) /\ forall a, (a < m)%nat -> Rabs (mo wt s a - q s a) <= D).
        { induction m as [|m IH]; intros Hm'; [exists 0; split; [lra|intros; lia]|]. destruct IH as (D & HD & B); [lia|]. exists (Rmax D (Rabs (mo wt s m - q s m))). split.
          - specialize (C s m Hs ltac:(lia)). split; [eapply Rle_trans; [apply HD|apply Rmax_l]|]. unfold Rmax. destruct (Rle_dec _ _); lra.
          - intros a Ha. destruct (Nat.eq_dec a m) as [->|]; [apply Rmax_r|eapply Rle_trans; [apply B; lia|apply Rmax_l]]. }
        exact (Z nA (le_n nA)). }
      assert (Z : forall m, (m <= nS)%nat -> exists D, (0 <= D /\ 2 * D < margin) /\ forall s, (s < m)%nat -> forall a, (a < nA)%nat -> Rabs (mo wt s a - q s a) <= D).
      { induction m as [|m IH]; intros Hm'; [exists 0; split; [lra|intros; lia]|]. destruct IH as (D & HD & B); [lia|]. destruct (ONE m Hm') as (D' & HD' & B'). exists (Rmax D D'). split.
        - split; [eapply Rle_trans; [apply HD|apply Rmax_l]|]. unfold Rmax. destruct (Rle_dec _ _); lra.
        - intros s Hs a Ha. destruct (Nat.eq_dec s m) as [->|]; [eapply Rle_trans; [now apply B'|apply Rmax_r]|eapply Rle_trans; [apply B; auto; lia|apply Rmax_l]]. }
      exact (Z nS (le_n nS)). }
    destruct B as (D & HD & B). exists D. split; auto. exists w, wt. split; auto. }
  destruct EX as (D & HD & TM).
  assert (X := @rounds rstep gamma (FL + kap) (fun D => 0 <= D /\ 2 * D < margin) targ_mean both_mean (fun D y => @control_round kap D y Hk Hc) (fun D y '(ex_intro _ w (conj N (conj T C))) => ex_intro _ w (ex_intro _ w (conj N (conj T C)))) M D y HD TM).
  refine (@after_rounds_imp rstep (S M) _ _ _ y X). intros y' (w' & N' & T' & C'). exists w'. split; auto. split; auto. intros s a Hs Ha. eapply Rle_trans; [now apply C'|]. eapply Rle_trans; [apply dn_bound; lra|]. specialize (HM (S M) ltac:(lia)).
  assert (P := pow_le gamma (S M) ltac:(lra)). assert (gamma ^ S M * D <= eps / 2) by nra. assert ((FL + kap) / (1 - gamma) <= FL / (1 - gamma) + eps / 2); [|lra]. replace (FL / (1 - gamma) + eps / 2) with ((FL + eps / 2 * (1 - gamma)) / (1 - gamma)) by (field; lra). apply Rmult_le_compat_r; [left; apply Rinv_0_lt_compat; lra|lra].
Qed.
End Control.
End Conv.
