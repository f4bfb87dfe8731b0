From Coq Require Import List Lia Bool Arith Reals Lra.
From Verif Require Import PyCommon CommonProofs UtilsModel UtilsSpec UtilsProofs2 UtilsProofs3 WrappersProofs DistModel DistSpec DistProofs DistProofs2 DistProofs3 LossModel LossSpec LossProofs QModel QProofs QProps TDModel TDSpec TDProofs TDProofs2 TDProofs3 TDProofs4 CoreModel CoreSpec CoreProofs.
From Verif Require Import LearnModel LearnSpec LearnProofs LearnProofs2 LearnProofs3 LearnProofs4 LearnProofs5 LearnProofs6 LearnProofs7 NoiseSpec NoiseProofs NoiseProofs2 NoiseProofs3 NoiseProofs4 NoiseProofs5 ChanceModel ChanceSpec ChanceProofs ChanceProofs2 SchedModel SchedSpec.
Import ListNotations.
Set Implicit Arguments.
Local Open Scope R_scope.

(** * The optimizer *)
Definition ostate (c : R) : ptree := Node [] [Node [] []; Node [0%nat] [Leaf [c]]].
Lemma update_schedule : forall (M : Type) gam f sch c os l' (m : M), update gam (mkLearner KTD f (sgd (sch c)) os) = (l', Ok m) ->
  update gam (mkLearner KTD f (sgd_schedule sch) (ostate c)) = (mkLearner KTD (l_func l') (sgd_schedule sch) (ostate (c + 1)), Ok m).
Proof.
  intros M gam f sch c os l' m H. unfold update, with_func in *. cbn [l_func with_func l_kind l_opt l_ostate] in *. destruct (gam _ _ _) as [[[g fs] m']|e]; [|discriminate H]. destruct (has_nan g); [discriminate H|].
  unfold apply_grads, with_func in *. cbn [l_func with_func l_kind l_opt l_ostate] in *. destruct (set_state _ fs) as [f1 [[]|e]]; [|discriminate H]. cbn [l_func with_func l_kind l_opt l_ostate] in *. unfold apply_grads_func in *. cbn [o_update sgd sgd_schedule ostate bind fst snd] in *.
  destruct (tmap2 (jop Rplus) (f_params f1) (scaled (- sch c) g)) as [p|e]; cbn [bind] in *; [|discriminate H]. unfold set_ostate, with_func in *. cbn [l_func l_opt l_kind l_ostate] in *.
  match goal with |- context [same_structure ?a ?b] => replace (same_structure a b) with true by reflexivity end.
  destruct (same_structure os os); cbn iota beta in H; [|discriminate H]. cbn [l_func with_func l_kind l_opt l_ostate] in *. destruct (set_params f1 p) as [f2 [[]|e]]; inversion H; subst. reflexivity.
Qed.

(** * Values along a program *)
Fixpoint track (c : nat -> R) (g : nat -> R) (k : nat) (x : R) (ws : list nat) : R := match ws with [] => x | w :: ws' => track c g (S k) ((1 - c k) * x + c k * g w) ws' end.

Section Run.
Variables nS nA : nat.
Variable dyn : nat -> nat -> nat -> nat * R * bool.
Variable P : list R.
Variable gamma : R.
Variable net : list R -> qfun nat R.
Variables (target : list R -> list R -> tbatch nat -> outcome (list R)) (val : valuation).
Variables (grads : list R -> list R -> fbatch nat -> list R) (sub : nat -> nat -> bool).
Variables (f : func) (t : option func) (th0 : list R) (aim : nat -> nat -> nat -> R).
Hypothesis DATA : noisy_data nS nA dyn P gamma net target val grads f t th0 aim.
Variable sch : R -> R.
Variable r : nat -> nat * nat.
Notation tq := (tq nA).
Definition inv (k : nat) (y : sys) : Prop := exists f1 th, y = mkSys (mkLearner KTD f1 (sgd_schedule sch) (ostate (INR k))) t /\ f_params f1 = wrap th /\ length th = (nS * nA)%nat.
Lemma inv_start : inv 0 (scheduled sch f t).
Proof. destruct DATA as (_ & _ & _ & _ & _ & _ & F & L & _). exists f, th0. split; [reflexivity|]. split; auto. Qed.
Lemma worth_aim : forall k y targ w s a x, inv k y -> targ_params y = wrap targ -> (w < length P)%nat -> (s < nS)%nat -> (a < nA)%nat -> worth dyn gamma val (tq targ) w s a x -> x = aim w s a.
Proof.
  intros k y targ w s a x (f1 & th & -> & F1 & L1) PT Hw Hs Ha (m & Hm & ->). destruct DATA as (HA & HP & CL & TB & AL & GR & F & L & D). pose proof (table_tabular TB) as T. unfold targ_params in PT. cbn [y_targ] in PT. destruct t as [t0|].
  - destruct D as (targ' & qt & FT & LT & QT & WO). assert (targ = targ') by (rewrite FT in PT; unfold wrap in PT; congruence). subst targ'. destruct (WO w s a Hw Hs Ha) as (m' & Hm' & ->). destruct (ends (dyn w) s a); [reflexivity|]. f_equal. f_equal.
    destruct (algorithm_ok HA T AL) as [_ NX]. assert (Z : Rabs (m - m') <= 0). { eapply NX; [|exact Hm|exact Hm']. intros c Hc. assert (E := QT _ c (@CL w Hw s a Hs Ha) Hc). rewrite (tab_call T targ LT (@CL w Hw s a Hs Ha) Hc) in E. injection E as <-. rewrite Rminus_diag_eq by auto. rewrite Rabs_R0. lra. }
    assert (Y := Rabs_pos (m - m')). destruct (Rcase_abs (m - m')) as [C|C]; [rewrite Rabs_left in Z by auto|rewrite Rabs_right in Z by auto]; lra.
  - destruct (D w s a Hw Hs Ha) as [E ->]. rewrite E. lra.
Qed.
Lemma inv_step : forall k y w b, inv k y -> sampled nS nA (length P) dyn gamma [r k] [w] b -> fb_W b = [1] ->
  exists y', ystep nA net target mse grads sub y (YUpdate b) = (y', Ok tt) /\ inv (S k) y' /\
  forall s a, (s < nS)%nat -> (a < nA)%nat -> tq (tab (q_params y')) s a = (1 - rate sch r s a k) * tq (tab (q_params y)) s a + rate sch r s a k * aim w s a.
Proof.
  intros k y w b IN SA HW. pose proof IN as (f1 & th & EY & F1 & L1). destruct DATA as (HA & HP & CL & TB & AL & GR & F & L & D). pose proof (table_tabular TB) as T. destruct (algorithm_ok HA T AL) as [ST _]. destruct (proj2 (algorithm_one HA AL)) as [v HV].
  assert (PT : exists targ, targ_params y = wrap targ /\ length targ = (nS * nA)%nat). { subst y. unfold targ_params, q_params. cbn [y_targ y_learner l_func]. destruct t as [t0|]; [destruct D as (targ & _ & FT & LT & _); eauto|eauto]. } destruct PT as (targ & PT & LT).
  set (t1 := match t with None => None | Some t0 => Some (mkFunc 0 (f_params t0) (f_state f1) 0) end).
  set (y1 := mkSys (mkLearner KTD f1 (sgd (sch (INR k))) (Node [] [])) t1).
  assert (SG : sgd_learner (sch (INR k)) (fun _ _ => true) y1) by (split; [reflexivity|]; unfold y1, t1; cbn [y_targ]; destruct t; auto).
  assert (P1 : targ_params y1 = targ_params y) by (subst y; unfold targ_params, y1, t1, q_params; cbn [y_targ]; destruct t; reflexivity).
  destruct (@sampled_update nS nA (length P) HA net T dyn gamma target val ST v HV mse1 (fun y h => h - y) mse_deriv grads (fun _ _ => true) (sch (INR k)) GR y1 th targ [r k] [w] b SG F1 L1 ltac:(congruence) LT SA) as (y' & th' & G & Y1 & Y2 & Y3 & Y4 & Y5 & LG & WG & C).
  unfold ystep in Y1. change (zip_loss mse1) with mse in Y1. rewrite P1 in Y1. destruct (update (grads_and_metrics nA net target mse grads (targ_params y) b) (y_learner y1)) as [l' res] eqn:U. injection Y1 as <- ->.
  apply update_schedule in U. exists (mkSys (mkLearner KTD (l_func l') (sgd_schedule sch) (ostate (INR k + 1))) t). split; [|split].
  - subst y. unfold ystep. cbn [y_learner y_targ] in *. rewrite U. reflexivity.
  - exists (l_func l'), th'. split; [now rewrite S_INR|]. split; auto.
  - intros s a Hs Ha. unfold q_params. cbn [y_learner l_func]. assert (TY : tab (f_params (l_func l')) = th') by (unfold q_params in Y4; cbn [y_learner] in Y4; rewrite Y4; reflexivity). rewrite TY, (C s a Hs Ha). subst y. cbn [y_learner l_func]. rewrite F1. change (tab (wrap th)) with th.
    cbn [length seq map nth]. rewrite total_cons. change (total []) with 0.
    assert (W1 : nth 0 (clip_w (fb_W b)) 0 = 1) by (rewrite HW, clip_w_nth by (cbn; lia); rewrite wclip; cbn; unfold Rmax, Rmin; repeat destruct (Rle_dec _ _); lra). rewrite W1. cbn [INR]. unfold rate. change (Nat.eqb (fst (r k)) s && Nat.eqb (snd (r k)) a)%bool with (same_pair (r k) (s, a)).
    destruct (same_pair (r k) (s, a)) eqn:SP; [|field]. apply same_pair_spec in SP. assert (E0 : nth_error [r k] 0 = Some (s, a)) by (cbn; congruence).
    destruct (sampled_rows HA SA _ E0) as (Hw & _). cbn [nth] in Hw. specialize (WG 0%nat s a E0). cbn [nth] in WG. rewrite (@worth_aim k _ targ w s a _ IN PT Hw Hs Ha WG). field.
Qed.
Lemma sched_run : forall n k ws os y, inv k y -> follows nS nA (length P) dyn gamma (map (fun k => DUpdate [r k] [1]) (seq k n)) ws os ->
  exists y', yrun nA net target mse grads sub y os = (y', Ok tt) /\ inv (k + n) y' /\ length ws = n /\ (forall w, In w ws -> (w < length P)%nat) /\
  forall s a, (s < nS)%nat -> (a < nA)%nat -> tq (tab (q_params y')) s a = track (rate sch r s a) (fun w => aim w s a) k (tq (tab (q_params y)) s a) ws.
Proof.
  induction n as [|n IH]; intros k ws os y IN FO; cbn [seq map] in FO.
  - inversion FO. subst. exists y. rewrite Nat.add_0_r. repeat (split; auto). intros w [].
  - inversion FO as [|rw v0 b d0 u0 o0 S0 F0 E1 E2 E3|]. subst. assert (L0 : length v0 = 1%nat) by (destruct S0 as (_ & _ & _ & _ & _ & _ & _ & X & _); exact X). destruct v0 as [|w [|]]; try discriminate.
    assert (HWb : fb_W b = [1]) by auto. try rewrite HWb in F0.
    destruct (@inv_step k y w b IN S0 HWb) as (y1 & Y1 & I1 & V1). destruct (IH (S k) u0 o0 y1 I1 F0) as (y' & R' & I' & LW & BW & V'). exists y'. split; [cbn [yrun]; rewrite Y1; exact R'|]. split; [now replace (k + S n)%nat with (S k + n)%nat by lia|]. split; [cbn; lia|].
    destruct DATA as (HA & _). split; [intros w' [<-|I]; auto; destruct (r k) as [s0 a0] eqn:ER; destruct (@sampled_rows nS nA (length P) HA dyn gamma [(s0, a0)] [w] b S0 0%nat s0 a0 eq_refl) as (X & _); exact X|].
    intros s a Hs Ha. rewrite (V' s a Hs Ha). cbn [app track]. now rewrite (V1 s a Hs Ha).
Qed.
Lemma sched_values : forall n os, (forall ws, noise_list (length P) n ws -> follows nS nA (length P) dyn gamma (one_by_one r n) ws (os ws)) ->
  gives nS nA net (fun ws => yrun nA net target mse grads sub (scheduled sch f t) (os ws)) (length P) n (fun ws s a => track (rate sch r s a) (fun w => aim w s a) 0 (tq th0 s a) ws).
Proof.
  intros n os FO ws Hws. destruct (@sched_run n 0%nat ws (os ws) _ inv_start (FO ws Hws)) as (y' & R' & (f1 & th & E & F1 & L1) & _ & _ & V). exists y', th. split; auto. split; [rewrite E; exact F1|]. intros s a Hs Ha. destruct DATA as (HA & _ & _ & TB & _ & _ & F & _).
  rewrite (tab_call (table_tabular TB) th L1 Hs Ha). f_equal. specialize (V s a Hs Ha). rewrite E in V. unfold q_params in V. cbn [y_learner l_func] in V. rewrite F1 in V. change (tab (wrap th)) with th in V. rewrite V. unfold scheduled, new_learner. cbn [y_learner l_func]. rewrite F. reflexivity.
Qed.
End Run.

(** * Mean and mean square *)
Lemma square_ext : forall c c' var e n, (forall j, c j = c' j) -> square_error c var e n = square_error c' var e n.
Proof. intros c c' var e n H. induction n as [|n IH]; cbn [square_error]; [reflexivity|]. now rewrite IH, H. Qed.
Lemma square_first : forall c var e n, square_error c var e (S n) = square_error (fun j => c (S j)) var ((1 - c 0%nat) ^ 2 * e + c 0%nat ^ 2 * var) n.
Proof. intros c var e n. induction n as [|n IH]; [reflexivity|]. cbn [square_error] in *. now rewrite IH. Qed.
Section Square.
Variable P : list R.
Hypothesis HP : distribution P.
Notation mean := (mean_over P).
Notation nW := (length P).
Lemma square_mix : forall c var (e : nat -> R) n, total (map (fun w => nth w P 0 * square_error c var (e w) n) (seq 0 nW)) = square_error c var (total (map (fun w => nth w P 0 * e w) (seq 0 nW))) n.
Proof.
  intros c var e n. induction n as [|n IH]; cbn [square_error]; [reflexivity|]. rewrite <- IH. rewrite (@total_ext _ _ (fun w => (1 - c n) ^ 2 * (nth w P 0 * square_error c var (e w) n) + (c n ^ 2 * var) * nth w P 0)) by (intros; ring).
  rewrite total_plus, !total_scal, (@P_total nW P HP eq_refl). ring.
Qed.
Variable g : nat -> R.
Definition mu : R := total (map (fun w => nth w P 0 * g w) (seq 0 nW)).
Definition var : R := total (map (fun w => nth w P 0 * (g w - mu) ^ 2) (seq 0 nW)).
Lemma track_square : forall c n k x, mean n (fun ws => (track c g k x ws - mu) ^ 2) = square_error (fun j => c (k + j)%nat) var ((x - mu) ^ 2) n.
Proof.
  intros c. induction n as [|n IH]; intros k x; [reflexivity|]. cbn [mean_over track]. rewrite (@total_ext _ _ (fun w => nth w P 0 * square_error (fun j => c (S k + j)%nat) var (((1 - c k) * x + c k * g w - mu) ^ 2) n)) by (intros w _; now rewrite IH).
  rewrite square_mix, square_first. rewrite Nat.add_0_r. rewrite (@square_ext (fun j => c (S k + j)%nat) (fun j => c (k + S j)%nat)) by (intros j; f_equal; lia). f_equal.
  rewrite (@total_ext _ _ (fun w => ((1 - c k) ^ 2 * (x - mu) ^ 2) * nth w P 0 + ((2 * (1 - c k) * (x - mu) * c k) * (nth w P 0 * g w - mu * nth w P 0) + c k ^ 2 * (nth w P 0 * (g w - mu) ^ 2)))) by (intros; ring).
  rewrite !total_plus, !total_scal, total_minus, total_scal, (@P_total nW P HP eq_refl). fold mu. fold var. ring.
Qed.
Lemma var_pos : 0 <= var.
Proof. apply Rle_trans with (total (map (fun _ => 0) (seq 0 nW))); [rewrite total_const; lra|]. apply total_le. intros w I. apply in_seq in I. apply Rmult_le_pos; [now apply p_pos|apply pow2_ge_0]. Qed.
End Square.

(** * Convergence *)
Section Conv.
Variable c : nat -> R.
Hypothesis C01 : forall k, 0 <= c k <= 1.
Definition csum (n : nat) : R := total (map c (seq 0 n)).
Fixpoint rest (K n : nat) : R := match n with O => 1 | S n' => (1 - c (K + n')%nat) * rest K n' end.
Lemma csum_S : forall n, csum (S n) = csum n + c n.
Proof. intros n. unfold csum. rewrite seq_S, map_app, total_app. cbn [map]. rewrite total_cons. change (total []) with 0. cbn [plus]. lra. Qed.
Lemma csum_mono : forall m n, (m <= n)%nat -> csum m <= csum n.
Proof. intros m n H. induction H as [|n H IH]; [lra|]. rewrite csum_S. specialize (C01 n). lra. Qed.
Lemma rest_bounds : forall K n, 0 <= rest K n /\ rest K n * (1 + (csum (K + n) - csum K)) <= 1.
Proof.
  intros K n. induction n as [|n [IH1 IH2]]; [cbn [rest]; rewrite Nat.add_0_r; lra|]. replace (K + S n)%nat with (S (K + n)) by lia. rewrite csum_S. cbn [rest]. set (d := c (K + n)%nat). assert (D := C01 (K + n)%nat). fold d in D. assert (S1 := @csum_mono K (K + n)%nat ltac:(lia)).
  set (u := csum (K + n) - csum K) in *. split; [apply Rmult_le_pos; lra|]. replace ((1 - d) * rest K n * (1 + (csum (K + n) + d - csum K))) with (rest K n * (1 + u) - rest K n * (d * u + d * d)) by (unfold u; ring).
  assert (0 <= rest K n * (d * u + d * d)) by (apply Rmult_le_pos; [auto|]; assert (0 <= u) by (unfold u; lra); nra). lra.
Qed.
Variables vr e0 : R.
Hypothesis Hvr : 0 <= vr.
Hypothesis He0 : 0 <= e0.
Lemma square_nonneg : forall n, 0 <= square_error c vr e0 n.
Proof. induction n as [|n IH]; cbn [square_error]; auto. assert (A := pow2_ge_0 (1 - c n)). assert (B := pow2_ge_0 (c n)). assert (0 <= (1 - c n) ^ 2 * square_error c vr e0 n) by now apply Rmult_le_pos. assert (0 <= c n ^ 2 * vr) by now apply Rmult_le_pos. lra. Qed.
Hypothesis VAN : forall e, 0 < e -> exists K, forall k, (K <= k)%nat -> c k <= e.
Hypothesis INF : forall M, exists n, M <= csum n.
Lemma square_small : forall e, 0 < e -> exists N, forall n, (N <= n)%nat -> square_error c vr e0 n <= e.
Proof.
  intros e He. destruct (VAN (e := e / (2 * (vr + 1)))) as [K HK]; [apply Rdiv_lt_0_compat; lra|]. set (a := square_error c vr e0).
  assert (CV : forall k, (K <= k)%nat -> c k * vr <= e / 2). { intros k Hk. specialize (HK k Hk). apply Rle_trans with (e / (2 * (vr + 1)) * (vr + 1)); [|right; field; lra]. destruct (C01 k). apply Rmult_le_compat; lra. }
  assert (B : forall n, a (K + n)%nat <= e / 2 + rest K n * a K).
  { induction n as [|n IH]; [cbn [rest]; rewrite Nat.add_0_r; lra|]. replace (K + S n)%nat with (S (K + n)) by lia. unfold a at 1. cbn [square_error rest]. fold a. set (d := c (K + n)%nat). assert (D := C01 (K + n)%nat). fold d in D. assert (X := CV (K + n)%nat ltac:(lia)). fold d in X.
    assert (PA : 0 <= a (K + n)%nat) by apply square_nonneg. change (square_error c vr e0 (K + n)) with (a (K + n)%nat).
    assert (Y1 : (1 - d) ^ 2 * a (K + n)%nat <= (1 - d) * a (K + n)%nat) by (apply Rmult_le_compat_r; auto; nra). assert (Y2 : d ^ 2 * vr <= d * (e / 2)) by (replace (d ^ 2 * vr) with (d * (d * vr)) by ring; apply Rmult_le_compat_l; lra).
    assert (Y3 : (1 - d) * a (K + n)%nat <= (1 - d) * (e / 2 + rest K n * a K)) by (apply Rmult_le_compat_l; lra). lra. }
  destruct (INF (csum K + 2 * a K / e)) as [N HN]. exists (K + N)%nat. intros n Hn. replace n with (K + (n - K))%nat by lia. eapply Rle_trans; [apply B|]. destruct (rest_bounds K (n - K)) as [R1 R2].
  assert (S1 : 2 * a K / e <= csum (K + (n - K)) - csum K) by (assert (Z := @csum_mono N (K + (n - K))%nat ltac:(lia)); lra). assert (PA : 0 <= a K) by apply square_nonneg.
  assert (Z : rest K (n - K) * (2 * a K / e) <= 1). { eapply Rle_trans; [|exact R2]. apply Rmult_le_compat_l; auto. lra. } assert (rest K (n - K) * a K <= e / 2); [|lra]. apply (Rmult_le_reg_r (2 / e)); [apply Rdiv_lt_0_compat; lra|]. replace (rest K (n - K) * a K * (2 / e)) with (rest K (n - K) * (2 * a K / e)) by (field; lra). replace (e / 2 * (2 / e)) with 1 by (field; lra). exact Z.
Qed.
End Conv.

(** * Averages *)
Lemma track_average : forall c g, (forall k, c k = 1 / (INR k + 1)) -> forall ws k x, (INR k + INR (length ws)) * track c g k x ws = INR k * x + total (map g ws).
Proof.
  intros c g H. induction ws as [|w ws IH]; intros k x; cbn [track length map]; [cbn [INR]; change (total []) with 0; ring|]. rewrite total_cons. specialize (IH (S k) ((1 - c k) * x + c k * g w)). rewrite !S_INR in *. replace (INR k + (INR (length ws) + 1)) with (INR k + 1 + INR (length ws)) by ring. rewrite IH, H. field. assert (0 <= INR k) by apply pos_INR. lra.
Qed.
Lemma track_constant : forall c g b ws k x, (forall w, In w ws -> g w = b) -> exists p, track c g k x ws = b + p * (x - b) /\ p = fold_right Rmult 1 (map (fun j => 1 - c j) (seq k (length ws))).
Proof.
  intros c g b. induction ws as [|w ws IH]; intros k x H; cbn [track length seq map fold_right]; [exists 1; split; [ring|reflexivity]|]. destruct (IH (S k) ((1 - c k) * x + c k * g w)) as (p & E & EP); [intros; apply H; now right|]. rewrite E. exists ((1 - c k) * p). split; [rewrite (H w) by (now left); ring|rewrite EP; reflexivity].
Qed.
