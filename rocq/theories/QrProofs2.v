(** Convergence of quantile TD learning on deterministic data. *)
From Coq Require Import List Lia Bool Arith Reals Lra.
From Verif Require Import PyCommon CommonProofs UtilsModel UtilsSpec UtilsProofs2 UtilsProofs3 DistModel DistProofs LossModel LossProofs TDModel TDSpec TDProofs CoreModel CoreSpec LearnModel LearnProofs LearnProofs3 MbModel MbProofs CatModel CatSpec CatProofs3 QrModel QrSpec QrProofs.
Import ListNotations.
Set Implicit Arguments.
Local Open Scope R_scope.

Lemma pull_up : forall tau u, 0 <= tau <= 1 -> pull tau u <= Rmax 0 u.
Proof. intros tau u H. unfold pull, Rmax, Rmin. destruct (Rlt_dec u 0); repeat destruct (Rle_dec _ _); nra. Qed.
Lemma pull_down : forall tau u, 0 <= tau <= 1 -> Rmin 0 u <= pull tau u.
Proof. intros tau u H. unfold pull, Rmax, Rmin. destruct (Rlt_dec u 0); repeat destruct (Rle_dec _ _); nra. Qed.
Lemma pull_neg : forall t0 tau u m, 0 <= t0 -> t0 <= tau <= 1 - t0 -> 0 <= m <= 1 -> u <= - m -> pull tau u <= - (t0 * m).
Proof. intros t0 tau u m H0 H Hm Hu. unfold pull, Rmax, Rmin. destruct (Rlt_dec u 0); repeat destruct (Rle_dec _ _); try nra. Qed.
Lemma pull_pos : forall t0 tau u m, 0 <= t0 -> t0 <= tau <= 1 - t0 -> 0 <= m <= 1 -> m <= u -> t0 * m <= pull tau u.
Proof. intros t0 tau u m H0 H Hm Hu. unfold pull, Rmax, Rmin. destruct (Rlt_dec u 0); repeat destruct (Rle_dec _ _); nra. Qed.
Lemma total_up : forall (f : nat -> R) K c, (forall j, (j < K)%nat -> f j <= c) -> total (map f (seq 0 K)) <= INR K * c.
Proof. intros f K c H. rewrite <- (seq_length K 0) at 2. rewrite <- total_const. apply total_le. intros j Hj. apply in_seq in Hj. apply H. lia. Qed.
Lemma total_low : forall (f : nat -> R) K c, (forall j, (j < K)%nat -> c <= f j) -> INR K * c <= total (map f (seq 0 K)).
Proof. intros f K c H. rewrite <- (seq_length K 0) at 1. rewrite <- total_const. apply total_le. intros j Hj. apply in_seq in Hj. apply H. lia. Qed.

Section Conv.
Variables nS nA K B : nat.
Variables gamma t0 lr margin : R.
Hypotheses (HK : (1 <= K)%nat) (Hg : 0 <= gamma < 1) (Ht : 0 < t0) (Hlr : 0 < lr).
Variables (alg : calg) (g : list R -> list (list R) -> fbatch nat -> list R -> list R) (sub : nat -> nat -> bool) (q : nat -> nat -> R).
Notation good_update := (good_update nS nA K gamma t0 lr margin B alg g q).
Notation good_op := (good_op nS nA K gamma t0 lr margin B alg g q).
Notation nets := (nets nS nA K lr sub).
Notation step := (qstep nS nA K alg g sub).
Notation run := (qrun nS nA K alg g sub).
Notation v := (val nA K).
Let c := lr * t0 / (10 * INR B).
Definition phi (D : R) : R := Rmax (gamma * D) (D - c * Rmin 1 ((1 - gamma) * D)).

Section Batch.
Variables (rows : list qrow) (b : fbatch nat) (taus : list (list R)).
Hypothesis GU : good_update rows b taus.
Let N := INR (length rows).
Lemma N_pos : 0 < N. Proof. destruct GU as (NE & _). apply lt_0_INR. destruct rows; [congruence|cbn; lia]. Qed.
Lemma K_pos : 0 < INR K. Proof. apply lt_0_INR. lia. Qed.
Lemma B_pos : 0 < INR B. Proof. destruct GU as (NE & LB & _). apply lt_0_INR. destruct rows; [congruence|cbn in LB; lia]. Qed.
Lemma cwt_low : forall x, 1/10 <= cwt x. Proof. intros x. apply Rmax_l. Qed.
Definition qs (s a : nat) : R := qpair_sum s a cwt rows.
Lemma qs_bounds : forall s a, 0 <= qs s a /\ lr * qs s a <= N.
Proof.
  intros s a. split.
  - unfold qs, qpair_sum. apply Rle_trans with (total (map (fun _ : qrow => 0) rows)); [rewrite total_const; lra|]. apply total_le. intros x _. pose proof (cwt_low x). destruct (at_pair s a (q_row x)); lra.
  - unfold qs, qpair_sum. rewrite <- total_scal. apply Rle_trans with (total (map (fun _ : qrow => 1) rows)); [|rewrite total_const; unfold N; lra]. apply total_le. intros x Hx. destruct GU as (_ & _ & _ & _ & _ & LR & _). specialize (LR x Hx). destruct (at_pair s a (q_row x)); lra.
Qed.
Lemma qs_visited : forall s a x, In x rows -> at_pair s a (q_row x) = true -> 1/10 <= qs s a.
Proof.
  intros s a x Hx E. unfold qs, qpair_sum. apply Rle_trans with (cwt x); [apply cwt_low|]. pose proof (@total_in_le _ (fun x => if at_pair s a (q_row x) then cwt x else 0) rows x) as T. cbv beta in T. rewrite E in T. apply T; auto. intros x' _. pose proof (cwt_low x'). destruct (at_pair s a (q_row x')); lra.
Qed.
Lemma sum_up : forall s a (P : qrow -> R) A, (forall x, In x rows -> at_pair s a (q_row x) = true -> P x <= A) -> qpair_sum s a (fun x => cwt x * P x) rows <= A * qs s a.
Proof. intros s a P A H. unfold qs, qpair_sum. rewrite <- total_scal. apply total_le. intros x Hx. destruct (at_pair s a (q_row x)) eqn:E; [|lra]. specialize (H x Hx E). pose proof (cwt_low x). rewrite (Rmult_comm A). apply Rmult_le_compat_l; lra. Qed.
Lemma entry_gen : forall s a P e G, (e <= G -> forall x, In x rows -> at_pair s a (q_row x) = true -> P x <= INR K * (G - e)) -> (G < e -> forall x, In x rows -> at_pair s a (q_row x) = true -> P x <= INR K * (- (t0 * Rmin 1 (e - G)))) ->
  let e' := e + lr / (N * INR K) * qpair_sum s a (fun x => cwt x * P x) rows in e' <= Rmax e G /\ ((exists x, In x rows /\ at_pair s a (q_row x) = true) -> forall D, e <= D -> G <= D -> e' <= Rmax G (D - c * Rmin 1 (D - G))).
Proof.
  intros s a P e G H1 H2 e'. pose proof N_pos as NP. pose proof K_pos as KP. pose proof B_pos as BP. destruct (qs_bounds s a) as [Q0 Q1]. assert (F0 : 0 < lr / (N * INR K)) by (apply Rdiv_lt_0_compat; auto; now apply Rmult_lt_0_compat).
  destruct (Rle_lt_dec e G) as [C|C].
  - assert (X : e' <= G). { unfold e'. apply Rle_trans with (e + lr / (N * INR K) * (INR K * (G - e) * qs s a)); [apply Rplus_le_compat_l, Rmult_le_compat_l; [lra|apply sum_up; auto]|]. replace (lr / (N * INR K) * (INR K * (G - e) * qs s a)) with ((lr * qs s a) * ((G - e) / N)) by (field; lra).
      apply Rle_trans with (e + N * ((G - e) / N)); [|right; field; lra]. apply Rplus_le_compat_l, Rmult_le_compat_r; auto. apply Rmult_le_pos; [lra|]. left. now apply Rinv_0_lt_compat. }
    split; [eapply Rle_trans; [exact X|apply Rmax_r]|]. intros _ D _ _. eapply Rle_trans; [exact X|apply Rmax_l].
  - set (m := Rmin 1 (e - G)). assert (M0 : 0 <= m <= 1) by (unfold m, Rmin; destruct (Rle_dec 1 (e - G)); lra).
    assert (X : e' <= e - lr * t0 * m / N * qs s a). { unfold e'. apply Rle_trans with (e + lr / (N * INR K) * (INR K * (- (t0 * m)) * qs s a)); [apply Rplus_le_compat_l, Rmult_le_compat_l; [lra|apply sum_up; auto]|]. right. field. lra. }
    assert (Y : 0 <= lr * t0 * m / N) by (apply Rmult_le_pos; [|left; now apply Rinv_0_lt_compat]; apply Rmult_le_pos; [|lra]; apply Rmult_le_pos; lra).
    split; [eapply Rle_trans; [|apply Rmax_l]; pose proof (Rmult_le_pos _ _ Y Q0); lra|]. intros (x & Hx & Ex) D HD HG. pose proof (@qs_visited s a x Hx Ex) as QV. eapply Rle_trans; [|apply Rmax_r].
    assert (LB : N <= INR B) by (destruct GU as (_ & LB & _); now apply le_INR).
    assert (CM : c * m <= lr * t0 * m / N * qs s a). { apply Rle_trans with (lr * t0 * m / N * (1/10)); [|apply Rmult_le_compat_l; auto]. unfold c. replace (lr * t0 / (10 * INR B) * m) with (lr * t0 * m * (1/10) * / INR B) by (field; lra). replace (lr * t0 * m / N * (1/10)) with (lr * t0 * m * (1/10) * / N) by (field; lra).
      apply Rmult_le_compat_l; [|apply Rinv_le_contravar; auto]. apply Rmult_le_pos; [|lra]. apply Rmult_le_pos; [|lra]. apply Rmult_le_pos; lra. }
    assert (C1 : 0 <= c <= 1). { split; [unfold c; apply Rmult_le_pos; [apply Rmult_le_pos; lra|left; apply Rinv_0_lt_compat; lra]|]. unfold c. apply Rmult_le_reg_r with (10 * INR B); [lra|]. unfold Rdiv. rewrite Rmult_assoc, Rinv_l, Rmult_1_r, Rmult_1_l by lra.
      assert (L10 : lr <= 10). { destruct GU as (_ & _ & _ & _ & _ & LR & _). specialize (LR x Hx). pose proof (cwt_low x). assert (lr * (1/10) <= lr * cwt x) by (apply Rmult_le_compat_l; lra). lra. } assert (B1 : 1 <= INR B) by (apply (le_INR 1); destruct GU as (NE & LB' & _); destruct rows; [congruence|cbn in LB'; lia]).
      assert (T1 : t0 <= 1). { destruct GU as (_ & _ & HB & _). pose proof (@row_tau nS nA K gamma t0 rows HB x 0%nat Hx ltac:(lia)). lra. } apply Rle_trans with (10 * 1); [|lra]. apply Rmult_le_compat; lra. }
    apply Rle_trans with (e - c * m); [lra|]. unfold m, Rmin. destruct (Rle_dec 1 (e - G)), (Rle_dec 1 (D - G)); nra.
Qed.
Lemma entry_step : forall w wt w' s a k D, (forall s a k, (s < nS)%nat -> (a < nA)%nat -> (k < K)%nat -> Rabs (v wt s a k - q s a) <= D) -> 0 <= D -> (k < K)%nat ->
  v w' s a k = v w s a k + lr / (N * INR K) * qpair_sum s a (fun x => cwt x * row_pull nA K wt x k (v w s a k)) rows ->
  Rabs (v w' s a k - q s a) <= Rmax (Rabs (v w s a k - q s a)) (gamma * D) /\ ((exists x, In x rows /\ at_pair s a (q_row x) = true) -> Rabs (v w s a k - q s a) <= D -> Rabs (v w' s a k - q s a) <= phi D).
Proof.
  intros w wt w' s a k D HD D0 Hk E. destruct GU as (NE & LB & HB & HR & HF & LR & _). set (e := v w s a k - q s a). set (G := gamma * D).
  assert (U : forall x j, In x rows -> at_pair s a (q_row x) = true -> (j < K)%nat -> exists u, w_r (q_row x) + w_in (q_row x) * v wt (w_next (q_row x)) (w_anext (q_row x)) j - v w s a k = u - e /\ - G <= u <= G).
  { intros x j Hx Ex Hj. unfold at_pair in Ex. apply andb_prop in Ex. destruct Ex as [E1 E2]. apply Nat.eqb_eq in E1, E2. pose proof (HF x Hx) as F. rewrite E1, E2 in F. destruct (@row_bounds nS nA K gamma t0 rows HB x Hx) as (A1 & A2 & A3 & A4 & A5).
    exists (w_in (q_row x) * (v wt (w_next (q_row x)) (w_anext (q_row x)) j - q (w_next (q_row x)) (w_anext (q_row x)))). split; [unfold e; rewrite <- F; ring|]. specialize (HD _ _ j A3 A4 Hj).
    set (d := v wt (w_next (q_row x)) (w_anext (q_row x)) j - q (w_next (q_row x)) (w_anext (q_row x))) in *. assert (X : - D <= d <= D) by (unfold Rabs in HD; destruct (Rcase_abs d); lra). unfold G. set (i := w_in (q_row x)) in *. assert (i * D <= gamma * D) by (apply Rmult_le_compat_r; lra). nra. }
  pose proof (@row_tau nS nA K gamma t0 rows HB) as RT. assert (G0 : 0 <= G) by (apply Rmult_le_pos; lra). assert (GD : G <= D) by (unfold G; nra).
  assert (Z : v w' s a k - q s a = e + lr / (N * INR K) * qpair_sum s a (fun x => cwt x * row_pull nA K wt x k (v w s a k)) rows) by (rewrite E; unfold e; ring).
  destruct (@entry_gen s a (fun x => row_pull nA K wt x k (v w s a k)) e G) as [UA UB].
  { intros C x Hx Ex. unfold row_pull. apply total_up. intros j Hj. destruct (U x j Hx Ex Hj) as (u & -> & Bu). pose proof (RT x k Hx Hk). eapply Rle_trans; [apply pull_up; lra|]. apply Rmax_lub; lra. }
  { intros C x Hx Ex. unfold row_pull. apply total_up. intros j Hj. destruct (U x j Hx Ex Hj) as (u & -> & Bu). apply pull_neg; [lra|apply RT; auto|unfold Rmin; destruct (Rle_dec 1 (e - G)); lra|]. pose proof (Rmin_r 1 (e - G)). lra. }
  destruct (@entry_gen s a (fun x => - row_pull nA K wt x k (v w s a k)) (- e) G) as [LA LB'].
  { intros C x Hx Ex. apply Ropp_le_cancel. rewrite Ropp_involutive. replace (- (INR K * (G - - e))) with (INR K * (- (G + e))) by ring. unfold row_pull. apply total_low. intros j Hj. destruct (U x j Hx Ex Hj) as (u & -> & Bu). pose proof (RT x k Hx Hk). eapply Rle_trans; [|apply pull_down; lra]. apply Rmin_glb; lra. }
  { intros C x Hx Ex. apply Ropp_le_cancel. rewrite Ropp_involutive. replace (- (INR K * - (t0 * Rmin 1 (- e - G)))) with (INR K * (t0 * Rmin 1 (- e - G))) by ring. unfold row_pull. apply total_low. intros j Hj. destruct (U x j Hx Ex Hj) as (u & -> & Bu). apply pull_pos; [lra|apply RT; auto|unfold Rmin; destruct (Rle_dec 1 (- e - G)); lra|]. pose proof (Rmin_r 1 (- e - G)). lra. }
  assert (NS : qpair_sum s a (fun x => cwt x * - row_pull nA K wt x k (v w s a k)) rows = - qpair_sum s a (fun x => cwt x * row_pull nA K wt x k (v w s a k)) rows).
  { unfold qpair_sum. rewrite (@total_ext _ _ (fun x => -1 * (if at_pair s a (q_row x) then cwt x * row_pull nA K wt x k (v w s a k) else 0))) by (intros x _; destruct (at_pair s a (q_row x)); ring). rewrite total_scal. ring. }
  rewrite NS in LA, LB'. cbv zeta in UA, UB, LA, LB'. rewrite Z. set (S := lr / (N * INR K) * qpair_sum s a (fun x => cwt x * row_pull nA K wt x k (v w s a k)) rows) in *.
  replace (- e + lr / (N * INR K) * - qpair_sum s a (fun x => cwt x * row_pull nA K wt x k (v w s a k)) rows) with (- (e + S)) in LA, LB' by (unfold S; ring).
  assert (RA : forall y c0, y <= c0 -> - y <= c0 -> Rabs y <= c0) by (intros y c0 Y1 Y2; unfold Rabs; destruct (Rcase_abs y); lra). split.
  - apply RA; (eapply Rle_trans; [eassumption|]); apply Rmax_lub; try apply Rmax_r; (eapply Rle_trans; [|apply Rmax_l]); [apply Rle_abs|rewrite <- Rabs_Ropp; apply Rle_abs].
  - intros V ED. unfold phi. fold G. replace ((1 - gamma) * D) with (D - G) by (unfold G; ring). apply RA; [apply UB|apply LB']; auto; (eapply Rle_trans; [|exact ED]); [apply Rle_abs|rewrite <- Rabs_Ropp; apply Rle_abs].
Qed.
End Batch.

Definition within (D : R) (w : list R) : Prop := forall s a k, (s < nS)%nat -> (a < nA)%nat -> (k < K)%nat -> Rabs (v w s a k - q s a) <= D.
Definition fine (D : R) : Prop := 0 <= D /\ (alg = CQ -> 2 * D < margin).
Lemma mean_within : forall D w s a, within D w -> (s < nS)%nat -> (a < nA)%nat -> Rabs (val_mean nA K w s a - q s a) <= D.
Proof.
  intros D w s a W Hs Ha. pose proof K_pos as KP. assert (KP' : 0 < INR K) by (apply lt_0_INR; lia). unfold val_mean. assert (U : total (map (v w s a) (seq 0 K)) <= INR K * (q s a + D)) by (apply total_up; intros k Hk; specialize (W s a k Hs Ha Hk); unfold Rabs in W; destruct (Rcase_abs _) in W; lra).
  assert (L : INR K * (q s a - D) <= total (map (v w s a) (seq 0 K))) by (apply total_low; intros k Hk; specialize (W s a k Hs Ha Hk); unfold Rabs in W; destruct (Rcase_abs _) in W; lra). set (T := total _) in *.
  apply Rmult_le_compat_r with (r := / INR K) in U; [|left; now apply Rinv_0_lt_compat]. apply Rmult_le_compat_r with (r := / INR K) in L; [|left; now apply Rinv_0_lt_compat]. replace (INR K * (q s a + D) * / INR K) with (q s a + D) in U by (field; lra). replace (INR K * (q s a - D) * / INR K) with (q s a - D) in L by (field; lra). fold (T / INR K) in U, L. unfold Rabs. destruct (Rcase_abs _); lra.
Qed.
Lemma fine_uses : forall D wt rows b taus, fine D -> within D wt -> good_update rows b taus -> quses_next nA K alg wt rows.
Proof.
  intros D wt rows b taus [D0 F] W (NE & LB & HB & HR & HF & LR & GB & _). unfold quses_next. destruct alg; [exact I|]. specialize (F eq_refl). specialize (GB eq_refl). intros x a Hx Ha Na. destruct (@row_bounds nS nA K gamma t0 rows HB x Hx) as (A1 & A2 & A3 & A4 & A5).
  pose proof (GB (q_row x) a (in_map q_row _ _ Hx) Ha Na). pose proof (mean_within W A3 Ha) as M1. pose proof (mean_within W A3 A4) as M2. unfold Rabs in M1, M2. destruct (Rcase_abs _) in M1; destruct (Rcase_abs _) in M2; lra.
Qed.
Lemma phi_le : forall D, 0 <= D -> 0 <= c -> phi D <= D.
Proof. intros D D0 C0. unfold phi. apply Rmax_lub; [nra|]. assert (0 <= Rmin 1 ((1 - gamma) * D)) by (apply Rmin_glb; [lra|apply Rmult_le_pos; lra]). pose proof (Rmult_le_pos _ _ C0 H). lra. Qed.
Lemma c_nonneg : 0 <= c.
Proof. unfold c. destruct (Nat.eq_dec B 0) as [->|NB]; [cbn; unfold Rdiv; rewrite Rmult_0_r, Rinv_0; lra|]. assert (0 < INR B) by (apply lt_0_INR; lia). apply Rmult_le_pos; [apply Rmult_le_pos; lra|left; apply Rinv_0_lt_compat; lra]. Qed.

(** Progress: entries of q of the pairs in V are within phi D, all of them within E, those of q_targ within F. *)
Definition prog (D E F : R) (V : nat -> nat -> Prop) (tb : bool) (y : csys) : Prop :=
  exists w wt, nets y w wt /\ within E w /\ within F wt /\ (forall s a k, (s < nS)%nat -> (a < nA)%nat -> (k < K)%nat -> V s a -> Rabs (v w s a k - q s a) <= phi D) /\ (c_targ y = None <-> tb = false).
Lemma visits_row : forall rows b taus s a, good_update rows b taus -> (a < nA)%nat -> visits s a (QU b taus) -> exists x, In x rows /\ at_pair s a (q_row x) = true.
Proof.
  intros rows b taus s a (NE & LB & HB & HR & _) Ha (b' & taus' & i & E & Es & v0 & Ev & E1). injection E as <- <-. destruct HR as (R1 & R2 & _). rewrite R1 in Es. rewrite R2 in Ev. rewrite nth_error_map in Es, Ev. destruct (nth_error rows i) as [x|] eqn:Ex; [|discriminate]. cbn in Es, Ev. injection Es as Es. injection Ev as Ev. subst v0. apply nth_error_In in Ex.
  exists x. split; auto. unfold at_pair. rewrite Es, Nat.eqb_refl. cbn. apply Nat.eqb_eq. destruct (Nat.eq_dec (w_a (q_row x)) a) as [|NA]; auto. exfalso. unfold one_hot in E1. rewrite nth_seq_map in E1 by auto. destruct (Nat.eqb_spec a (w_a (q_row x))); [congruence|]. lra.
Qed.
(** One call. *)
Lemma prog_step : forall D E F V tb y o, 0 <= D -> phi D <= E -> E <= F -> F <= D -> fine D -> good_op o -> (tb = false -> E = F /\ forall tau, o <> QSync tau) -> prog D E F V tb y ->
  exists y', step y o = (y', Ok tt) /\ prog D E F (fun s a => V s a \/ visits s a o) tb y'.
Proof.
  intros D E F V tb y o D0 PE EF FD FI GO TB (w & wt & HN & W1 & W2 & W3 & T). assert (GP : gamma * D <= phi D) by apply Rmax_l. destruct GO as [rows b taus GU|tau Htau].
  - assert (U : quses_next nA K alg wt rows) by (eapply fine_uses; eauto; intros s a k Hs Ha Hk; eapply Rle_trans; [now apply W2|auto]). pose proof GU as (NE & LB & HB & HR & HF & LR & GB & HG).
    assert (T1 : t0 <= 1 - t0). { destruct rows as [|x l]; [congruence|]. pose proof (@row_tau nS nA K gamma t0 _ HB x 0%nat (or_introl eq_refl) ltac:(lia)). lra. }
    destruct (@qstep_update nS nA K HK alg gamma t0 rows b taus ltac:(lra) HB HR NE lr g sub HG T1 y w wt HN U) as (y' & w' & wt' & ES & N' & TW & TC & EV). exists y'. split; [exact ES|].
    assert (X : forall s a k, (s < nS)%nat -> (a < nA)%nat -> (k < K)%nat -> Rabs (v w' s a k - q s a) <= Rmax (Rabs (v w s a k - q s a)) (gamma * D) /\ ((exists x, In x rows /\ at_pair s a (q_row x) = true) -> Rabs (v w s a k - q s a) <= D -> Rabs (v w' s a k - q s a) <= phi D)).
    { intros s a k Hs Ha Hk. apply (@entry_step rows b taus GU w wt w' s a k D); auto. intros s0 a0 k0 H1 H2 H3. eapply Rle_trans; [now apply W2|auto]. }
    assert (WE : within E w'). { intros s a k Hs Ha Hk. destruct (X s a k Hs Ha Hk) as [X1 _]. eapply Rle_trans; [exact X1|]. apply Rmax_lub; [now apply W1|lra]. }
    exists w', wt'. split; [exact N'|]. split; [exact WE|]. split; [|split; [|rewrite TC; exact T]].
    + destruct (c_targ y) as [f|] eqn:Ef; [rewrite TW by discriminate; exact W2|]. assert (wt' = w') by (destruct N' as (_ & _ & _ & _ & N5); rewrite TC in N5; exact N5). subst wt'. intros s a k Hs Ha Hk. eapply Rle_trans; [now apply WE|auto].
    + intros s a k Hs Ha Hk [HV|HV]; destruct (X s a k Hs Ha Hk) as [X1 X2].
      * eapply Rle_trans; [exact X1|]. apply Rmax_lub; [now apply W3|auto].
      * apply X2; [eapply visits_row; eauto|]. eapply Rle_trans; [now apply W1|lra].
  - destruct tb; [|destruct (TB eq_refl) as [_ NS]; exfalso; now apply (NS tau)]. assert (TN : c_targ y <> None) by (intros C; apply T in C; discriminate).
    destruct (@qstep_sync nS nA K alg g lr sub tau y w wt HN TN) as (y' & wt' & ES & N' & TN' & EV). exists y'. split; [exact ES|]. exists w, wt'. split; [exact N'|]. split; [exact W1|]. split; [|split].
    + intros s a k Hs Ha Hk. rewrite EV by auto. specialize (W1 s a k Hs Ha Hk). specialize (W2 s a k Hs Ha Hk). replace (tau * v w s a k + (1 - tau) * v wt s a k - q s a) with (tau * (v w s a k - q s a) + (1 - tau) * (v wt s a k - q s a)) by ring. eapply Rle_trans; [apply Rabs_triang|]. rewrite !Rabs_mult, (Rabs_pos_eq tau), (Rabs_pos_eq (1 - tau)) by lra.
      set (x1 := Rabs (v w s a k - q s a)) in *. set (x2 := Rabs (v wt s a k - q s a)) in *. assert (tau * x1 <= tau * F) by (apply Rmult_le_compat_l; lra). assert ((1 - tau) * x2 <= (1 - tau) * F) by (apply Rmult_le_compat_l; lra). lra.
    + intros s a k Hs Ha Hk [HV|HV]; [now apply W3|]. destruct HV as (b' & taus' & i & C & _). discriminate.
    + split; [congruence|discriminate].
Qed.
Lemma prog_run : forall l D E F V tb y, 0 <= D -> phi D <= E -> E <= F -> F <= D -> fine D -> Forall good_op l -> (tb = false -> E = F /\ forall tau, ~ In (QSync tau) l) -> prog D E F V tb y ->
  exists y', run y l = (y', Ok tt) /\ prog D E F (fun s a => V s a \/ exists o, In o l /\ visits s a o) tb y'.
Proof.
  induction l as [|o l IH]; intros D E F V tb y D0 PE EF FD FI GO TB P.
  - exists y. split; auto. destruct P as (w & wt & HN & W1 & W2 & W3 & T). exists w, wt. repeat (split; auto). intros s a k Hs Ha Hk [HV|(o & [] & _)]. now apply W3.
  - inversion GO; subst. destruct (@prog_step D E F V tb y o) as (y1 & E1 & P1); auto. { intros ->. destruct (TB eq_refl) as [-> NS]. split; auto. intros tau ->. apply (NS tau). now left. }
    assert (TB' : tb = false -> E = F /\ forall tau, ~ In (QSync tau) l). { intros ->. destruct (TB eq_refl) as [-> NS]. split; auto. intros tau I. apply (NS tau). now right. }
    destruct (IH D E F _ tb y1 D0 PE EF FD FI ltac:(assumption) TB' P1) as (y2 & E2 & P2).
    exists y2. cbn [qrun]. rewrite E1. split; [exact E2|]. destruct P2 as (w & wt & HN & W1 & W2 & W3 & T). exists w, wt. repeat (split; auto); try apply T. intros s a k Hs Ha Hk [HV|(o' & [<-|I] & HV)]; apply W3; auto. right. now exists o'.
Qed.
Lemma run_app : forall l1 l2 y y1, run y l1 = (y1, Ok tt) -> run y (l1 ++ l2) = run y1 l2.
Proof. induction l1 as [|o l1 IH]; intros l2 y y1 H; cbn [app qrun] in *; [congruence|]. destruct (step y o) as [y' [[]|e]]; [|discriminate]. now apply IH. Qed.
Variable tau0 : R.
Hypothesis Htau0 : 0 < tau0 <= 1.
Definition psi (D : R) : R := (1 - tau0) * D + tau0 * phi D.
Lemma phi_psi : forall D, 0 <= D -> phi D <= psi D <= D.
Proof. intros D D0. pose proof (phi_le D0 c_nonneg). unfold psi. split; nra. Qed.
Definition both (D : R) (tb : bool) (y : csys) : Prop := exists w wt, nets y w wt /\ within D w /\ within D wt /\ (c_targ y = None <-> tb = false).
Lemma stretch_run : forall l D tb y, 0 <= D -> fine D -> Forall good_op l -> stretch nS nA tb tau0 l -> both D tb y -> exists y', run y l = (y', Ok tt) /\ both (psi D) tb y'.
Proof.
  intros l D tb y D0 FI GO ST (w & wt & HN & W1 & W2 & T). pose proof (phi_psi D0) as PP. pose proof (phi_le D0 c_nonneg) as PL. assert (P0 : prog D D D (fun _ _ => False) tb y) by (exists w, wt; repeat (split; auto); try apply T; contradiction). destruct tb; cbn in ST.
  - destruct ST as (l1 & l2 & tau & -> & CO & IS & TT). apply Forall_app in GO. destruct GO as [GO1 GO2]. destruct (@prog_run l1 D D D _ true y D0 PL ltac:(lra) ltac:(lra) FI GO1 ltac:(discriminate) P0) as (y1 & E1 & (w1 & wt1 & N1 & A1 & A2 & A3 & T1)).
    assert (AE : within (phi D) w1) by (intros s a k Hs Ha Hk; apply A3; auto; right; now apply CO). apply in_split in IS. destruct IS as (m1 & m2 & ->). apply Forall_app in GO2. destruct GO2 as [GM1 GM2]. inversion GM2 as [|o l' GM3 GM4]; subst.
    assert (P1 : prog D (phi D) D (fun _ _ => False) true y1) by (exists w1, wt1; repeat (split; auto); try apply T1; contradiction).
    destruct (@prog_run m1 D (phi D) D _ true y1 D0 ltac:(lra) ltac:(lra) ltac:(lra) FI GM1 ltac:(discriminate) P1) as (y2 & E2 & (w2 & wt2 & N2 & B1 & B2 & B3 & T2)).
    assert (TN : c_targ y2 <> None) by (intros C; apply T2 in C; discriminate). destruct (@qstep_sync nS nA K alg g lr sub tau y2 w2 wt2 N2 TN) as (y3 & wt3 & E3 & N3 & TN3 & EV3).
    assert (T01 : 0 <= tau <= 1) by (inversion GM3; auto).
    assert (P3 : prog D (phi D) (psi D) (fun _ _ => False) true y3).
    { exists w2, wt3. split; [exact N3|]. split; [exact B1|]. split; [|split; [contradiction|split; [congruence|discriminate]]]. intros s a k Hs Ha Hk. rewrite EV3 by auto. specialize (B1 s a k Hs Ha Hk). specialize (B2 s a k Hs Ha Hk). replace (tau * v w2 s a k + (1 - tau) * v wt2 s a k - q s a) with (tau * (v w2 s a k - q s a) + (1 - tau) * (v wt2 s a k - q s a)) by ring. eapply Rle_trans; [apply Rabs_triang|]. rewrite !Rabs_mult, (Rabs_pos_eq tau), (Rabs_pos_eq (1 - tau)) by lra.
      set (x1 := Rabs (v w2 s a k - q s a)) in *. set (x2 := Rabs (v wt2 s a k - q s a)) in *. assert (tau * x1 <= tau * phi D) by (apply Rmult_le_compat_l; lra). assert ((1 - tau) * x2 <= (1 - tau) * D) by (apply Rmult_le_compat_l; lra). unfold psi. assert (0 <= (tau - tau0) * (D - phi D)) by (apply Rmult_le_pos; lra). lra. }
    destruct (@prog_run m2 D (phi D) (psi D) _ true y3 D0 ltac:(lra) ltac:(lra) ltac:(lra) FI GM4 ltac:(discriminate) P3) as (y4 & E4 & (w4 & wt4 & N4 & C1 & C2 & C3 & T4)).
    exists y4. split; [rewrite (run_app l1 _ y E1), (run_app m1 _ y1 E2); cbn [qrun]; rewrite E3; exact E4|]. exists w4, wt4. repeat (split; auto); try apply T4. intros s a k Hs Ha Hk. eapply Rle_trans; [now apply C1|lra].
  - destruct ST as [CO NS]. destruct (@prog_run l D D D _ false y D0 PL ltac:(lra) ltac:(lra) FI GO ltac:(auto) P0) as (y1 & E1 & (w1 & wt1 & N1 & A1 & A2 & A3 & T1)).
    assert (AE : within (psi D) w1) by (intros s a k Hs Ha Hk; eapply Rle_trans; [apply A3; auto; right; now apply CO|lra]). exists y1. split; [exact E1|]. exists w1, wt1. split; [exact N1|]. split; [exact AE|]. split; [|exact T1]. assert (wt1 = w1) by (destruct N1 as (_ & _ & _ & _ & N5); rewrite (proj2 T1 eq_refl) in N5; exact N5). now subst.
Qed.
Lemma psi_drop : forall D eps, (1 <= B)%nat -> 0 < eps -> eps <= D -> psi D <= D - tau0 * Rmin ((1 - gamma) * eps) (c * Rmin 1 ((1 - gamma) * eps)).
Proof.
  intros D eps HB1 He HD. pose proof c_nonneg as C0. unfold psi. assert (X : phi D <= D - Rmin ((1 - gamma) * eps) (c * Rmin 1 ((1 - gamma) * eps))); [|nra].
  unfold phi. assert (Y : (1 - gamma) * eps <= (1 - gamma) * D) by (apply Rmult_le_compat_l; lra). apply Rmax_lub.
  - pose proof (Rmin_l ((1 - gamma) * eps) (c * Rmin 1 ((1 - gamma) * eps))). lra.
  - pose proof (Rmin_r ((1 - gamma) * eps) (c * Rmin 1 ((1 - gamma) * eps))). assert (Rmin 1 ((1 - gamma) * eps) <= Rmin 1 ((1 - gamma) * D)) by (apply Rmin_glb; [apply Rmin_l|eapply Rle_trans; [apply Rmin_r|auto]]). assert (c * Rmin 1 ((1 - gamma) * eps) <= c * Rmin 1 ((1 - gamma) * D)) by (apply Rmult_le_compat_l; auto). lra.
Qed.
Lemma both_mono : forall D D' tb y, D <= D' -> both D tb y -> both D' tb y.
Proof. intros D D' tb y H (w & wt & HN & W1 & W2 & T). exists w, wt. split; [exact HN|]. split; [|split; [|exact T]]; intros s a k Hs Ha Hk; (eapply Rle_trans; [|exact H]); auto. Qed.
Lemma stretches_run : forall eps d, 0 < eps -> 0 < d -> d = tau0 * Rmin ((1 - gamma) * eps) (c * Rmin 1 ((1 - gamma) * eps)) -> (1 <= B)%nat -> forall segs D tb y, 0 <= D -> fine D -> Forall (Forall good_op) segs -> Forall (stretch nS nA tb tau0) segs -> both D tb y ->
  exists y', run y (concat segs) = (y', Ok tt) /\ both (Rmax eps (D - INR (length segs) * d)) tb y'.
Proof.
  intros eps d He Hd Ed HB1. induction segs as [|l segs IH]; intros D tb y D0 FI GO ST P.
  - exists y. split; auto. eapply both_mono; [|exact P]. cbn. eapply Rle_trans; [|apply Rmax_r]. lra.
  - inversion GO; subst. inversion ST; subst. destruct (@stretch_run l D tb y) as (y1 & E1 & P1); auto. set (D1 := if Rle_dec D eps then D else psi D). assert (L1 : psi D <= D1 <= D) by (pose proof (phi_psi D0); unfold D1; destruct (Rle_dec D eps); lra). assert (D10 : 0 <= D1) by (pose proof (phi_psi D0); assert (0 <= phi D) by (unfold phi; eapply Rle_trans; [|apply Rmax_l]; apply Rmult_le_pos; lra); lra).
    destruct (IH D1 tb y1) as (y2 & E2 & P2); auto.
    + destruct FI as [_ FI]. split; auto. intros E. specialize (FI E). lra.
    + eapply both_mono; [|exact P1]. lra.
    + exists y2. cbn [concat]. split; [rewrite (run_app l _ y E1); exact E2|]. eapply both_mono; [|exact P2]. cbn [length]. rewrite S_INR. set (d := tau0 * Rmin ((1 - gamma) * eps) (c * Rmin 1 ((1 - gamma) * eps))) in *. set (n := INR (length segs)). assert (N0 : 0 <= n) by apply pos_INR.
      apply Rmax_lub; [apply Rmax_l|]. unfold D1. destruct (Rle_dec D eps) as [C|C]; [eapply Rle_trans; [|apply Rmax_l]; nra|]. pose proof (@psi_drop D eps HB1 He ltac:(lra)). fold d in H. eapply Rle_trans; [|apply Rmax_r]. lra.
Qed.
Lemma qr_converges : forall eps D0, (1 <= B)%nat -> 0 < eps -> 0 <= D0 -> (alg = CQ -> 2 * D0 < margin) -> exists M0, forall segs tb y, (M0 <= length segs)%nat -> Forall (Forall good_op) segs -> Forall (stretch nS nA tb tau0) segs -> both D0 tb y ->
  exists y', run y (concat segs) = (y', Ok tt) /\ both eps tb y'.
Proof.
  intros eps D0 HB1 He HD0 HM. set (d := tau0 * Rmin ((1 - gamma) * eps) (c * Rmin 1 ((1 - gamma) * eps))). assert (CP : 0 < c) by (unfold c; assert (0 < INR B) by (apply lt_0_INR; lia); apply Rdiv_lt_0_compat; [apply Rmult_lt_0_compat; lra|lra]).
  assert (E0 : 0 < (1 - gamma) * eps) by (apply Rmult_lt_0_compat; lra). assert (dp : 0 < d) by (apply Rmult_lt_0_compat; [lra|]; apply Rmin_glb_lt; auto; apply Rmult_lt_0_compat; auto; apply Rmin_glb_lt; lra).
  assert (AR : exists M, D0 / d < INR M) by (exists (Z.to_nat (up (D0 / d))); destruct (archimed (D0 / d)) as [AR _]; rewrite INR_IZR_INZ; eapply Rlt_le_trans; [exact AR|]; apply IZR_le; lia). destruct AR as [M HM0]. exists M. intros segs tb y HL GO ST P. destruct (@stretches_run eps d He dp eq_refl HB1 segs D0 tb y HD0 (conj HD0 HM) GO ST P) as (y' & E & P'). exists y'. split; [exact E|]. eapply both_mono; [|exact P']. apply Rmax_lub; [lra|]. apply le_INR in HL.
  assert (D0 < INR (length segs) * d). { apply Rmult_lt_reg_r with (/ d); [now apply Rinv_0_lt_compat|]. rewrite Rmult_assoc, Rinv_r, Rmult_1_r by lra. fold (D0 / d). lra. } lra.
Qed.
End Conv.
