From Coq Require Import List Lia Bool Arith Reals Lra.
From Verif Require Import PyCommon CommonProofs UtilsModel UtilsSpec UtilsProofs2 UtilsProofs3 WrappersProofs DistModel DistSpec DistProofs DistProofs2 DistProofs3 LossModel LossSpec LossProofs QModel QProofs QProps TDModel TDSpec TDProofs TDProofs2 TDProofs3 TDProofs4 CoreModel CoreSpec CoreProofs CoreProofs2 LearnModel LearnSpec LearnProofs LearnProofs2.
Import ListNotations.
Set Implicit Arguments.
Local Open Scope R_scope.

(** * What the operations do to wrapped parameters *)
Lemma wrap_entrywise : forall h (a c : list R) b, length c = length a -> entrywise h (wrap a) (wrap c) b -> b = wrap (map (fun i => h (nth i a 0) (nth i c 0)) (seq 0 (length a))).
Proof.
  intros h a c b L [S E]. unfold wrap in *. cbn in S.
  destruct b as [|k1 [|[|k2 [|[x|] [|]]] [|]]]; cbn in S; try discriminate. injection S as -> -> Lx.
  do 2 f_equal. f_equal. f_equal. f_equal. f_equal. apply (@list_eq_nth _ 0); [now rewrite map_length, seq_length|]. intros i Hi. rewrite (@nth_map_any _ _ _ (seq 0 (length a)) i 0 0%nat) by (rewrite seq_length; lia). rewrite seq_nth by lia. cbn [Nat.add].
  specialize (E [0%nat; 0%nat] i (nth i a 0) (nth i c 0)). unfold entry in E. cbn [leaf_at nth_error] in E. rewrite !(nth_error_nth' _ 0) in E by lia. specialize (E eq_refl eq_refl). now injection E.
Qed.
Lemma unwrap_wrap : forall th, unwrap (wrap th) = Some th. Proof. reflexivity. Qed.
Lemma wrap_no_nan : forall g : list R, ~ nan_somewhere (wrap (map (@Some R) g)).
Proof.
  intros g (path & x & H & I). unfold wrap in H. destruct path as [|[|n] [|[|m] path]]; cbn in H; try discriminate; try (destruct n; discriminate); try (destruct m; discriminate).
  destruct path; cbn in H; [|discriminate]. injection H as <-. apply in_map_iff in I. destruct I as (? & ? & _). discriminate.
Qed.
Section Ops.
Variables (nA : nat) (net : list R -> qfun nat R) (target : list R -> list R -> tbatch nat -> outcome (list R)) (loss : list R -> list R -> option (list R) -> outcome (option R)).
Variables (grads : list R -> list R -> fbatch nat -> list R) (sub : nat -> nat -> bool) (lr : R).
Notation ystep := (ystep nA net target loss grads sub).
Lemma ystep_update : forall y b th targ, sgd_learner lr sub y -> q_params y = wrap th -> targ_params y = wrap targ -> length (grads th targ b) = length th ->
  (exists v, q_loss (Some nA) net target loss th targ b th = Ok v) ->
  exists y', ystep y (YUpdate b) = (y', Ok tt) /\ sgd_learner lr sub y' /\ y_targ y' = y_targ y /\
    q_params y' = wrap (map (fun i => nth i th 0 - lr * nth i (grads th targ b) 0) (seq 0 (length th))).
Proof.
  intros y b th targ [HO HT] Q P L [v V]. unfold ystep. unfold q_params in Q.
  destruct (@update_ok unit (grads_and_metrics nA net target loss grads (targ_params y) b) (y_learner y) (wrap (map (@Some R) (grads th targ b))) (f_state (l_func (y_learner y))) tt
    (wrap (map (fun o => match o with Some v => - lr * v | None => 0 end) (map (@Some R) (grads th targ b)))) (l_ostate (y_learner y))) as (p & l' & E & EP & F); auto.
  - unfold grads_and_metrics. rewrite Q, P, !unwrap_wrap, V. reflexivity.
  - apply wrap_no_nan.
  - rewrite HO. reflexivity.
  - rewrite Q. unfold wrap. cbn. now rewrite !map_length, L.
  - rewrite E. eexists. split; [reflexivity|]. red in F. subst l'. unfold sgd_learner. cbn. split; [split; auto; destruct (y_targ y); auto|]. split; auto.
    rewrite Q in EP. apply wrap_entrywise in EP; [|now rewrite !map_length]. unfold q_params. cbn. rewrite EP. f_equal. apply map_ext_in. intros i Hi. apply in_seq in Hi. rewrite map_map. rewrite (@nth_map_any _ _ _ (grads th targ b) i 0 0) by lia. lra.
Qed.
Lemma ystep_sync : forall y tau th targ t, sgd_learner lr sub y -> y_targ y = Some t -> q_params y = wrap th -> targ_params y = wrap targ -> length targ = length th ->
  exists y' t', ystep y (YSync tau) = (y', Ok tt) /\ sgd_learner lr sub y' /\ y_targ y' = Some t' /\ q_params y' = wrap th /\
    targ_params y' = wrap (map (fun i => (1 - tau) * nth i targ 0 + tau * nth i th 0) (seq 0 (length targ))).
Proof.
  intros y tau th targ t [HO HT] Ht Q P L. unfold ystep. unfold q_params, targ_params in *. rewrite Ht in *. destruct HT as [HC HS].
  destruct (@soft_update_ok sub t (l_func (y_learner y)) tau) as (p & s & E & EP & ES); auto.
  - rewrite Q, P. unfold wrap. cbn. now rewrite L.
  - rewrite E. eexists. eexists. split; [reflexivity|]. cbn. split; [split; auto; cbn; split; auto; destruct ES as [-> _]; auto|]. split; [reflexivity|]. split; auto.
    rewrite Q, P in EP. apply wrap_entrywise in EP; auto.
Qed.
End Ops.

(** * Losses *)
Lemma clip_slope : forall e d M cl, 0 < d -> 0 < cl <= 1 -> cl * M <= d -> Rabs e <= M -> exists c, cl <= c <= 1 /\ clip e (- d) d = c * e.
Proof.
  intros e d M cl Hd Hc HM He. destruct (Rle_dec (Rabs e) d) as [A|A].
  - exists 1. split; [lra|]. assert (- d <= e <= d) by (unfold Rabs in A; destruct (Rcase_abs e); lra). rewrite clip_in by lra. lra.
  - assert (P : 0 < Rabs e) by lra. exists (d / Rabs e). split.
    + split; [apply (Rmult_le_reg_r (Rabs e)); auto; unfold Rdiv; rewrite Rmult_assoc, Rinv_l by lra; nra|]. apply (Rmult_le_reg_r (Rabs e)); auto. unfold Rdiv. rewrite Rmult_assoc, Rinv_l by lra. lra.
    + unfold Rabs in *. destruct (Rcase_abs e); [rewrite clip_low by lra|rewrite clip_high by lra]; field; lra.
Qed.
Definition slope (l' : R -> R -> R) (M cl : R) : Prop := forall G Q, Rabs (G - Q) <= M -> exists c, cl <= c <= 1 /\ l' G Q = - (c * (G - Q)).
Lemma pulls_slope : forall loss M cl, pulls loss M cl -> 0 < cl <= 1 /\ exists l l', loss = zip_loss l /\ (forall y h, derivable_pt_lim (l y) h (l' y h)) /\ slope l' M cl.
Proof.
  intros loss M cl [[-> ->]|(d & -> & Hd & Hc & HM)].
  - split; [lra|]. exists mse1, (fun y h => h - y). split; [reflexivity|]. split; [exact mse_deriv|]. intros G Q _. exists 1. lra.
  - split; [auto|]. exists (huber1 d), (fun y h => clip (h - y) (- d) d). split; [reflexivity|]. split; [intros; now apply huber_deriv|]. intros G Q H.
    destruct (@clip_slope (G - Q) d M cl Hd Hc HM H) as (c & C1 & C2). exists c. split; auto. rewrite <- C2, neg_clip by auto. f_equal. lra.
Qed.

(** * One update *)
Section Contraction.
Variables nS nA : nat.
Hypothesis HA : (1 <= nA)%nat.
Variable net : list R -> qfun nat R.
Hypothesis T : tabular nS nA net.
Variable dyn : nat -> nat -> nat * R * bool.
Variable gamma : R.
Hypothesis Hg : 0 <= gamma <= 1.
Variables (target : list R -> list R -> tbatch nat -> outcome (list R)) (val : valuation).
Hypothesis ST : sound_target nS nA target val.
Hypothesis NX : nonexpansive nA val.
Variables (l l' : R -> R -> R) (cl lr wl : R) (B : nat).
Hypothesis Dl : forall y h, derivable_pt_lim (l y) h (l' y h).
Hypothesis Hcl : 0 < cl <= 1.
Hypothesis Hlr : 0 < lr.
Hypothesis Hwl : 0 < wl.
Variable q : nat -> nat -> R.
Hypothesis BE : bellman nS nA dyn gamma val q.
Notation tq := (tq nA).
Definition beta : R := lr * wl * cl / INR B.
Definition err_le (th : list R) (D : R) : Prop := forall s a, (s < nS)%nat -> (a < nA)%nat -> Rabs (tq th s a - q s a) <= D.

Lemma targets_close : forall rows b th0 targ Dt, genuine nS nA dyn gamma rows b -> length targ = (nS * nA)%nat -> err_le targ Dt -> closed nS nA dyn -> exists G, target th0 targ (fb_t b) = Ok G /\ length G = length rows /\
  forall i s a, nth_error rows i = Some (s, a) -> Rabs (nth i G 0 - q s a) <= gamma * Dt.
Proof.
  intros rows b th0 targ Dt (NE & HS & HAc & HW & L1 & L2 & L3 & GEN) L E CL.
  destruct (@ST th0 targ (fb_t b) L) as (G & TG & LG & BG); [split; lia| |].
  { intros s Hs. apply In_nth_error in Hs. destruct Hs as [i Hi]. assert (i < length rows)%nat by (rewrite <- L3; apply nth_error_Some; congruence). destruct (nth_error rows i) as [[s0 a0]|] eqn:R0; [|apply nth_error_None in R0; lia]. now destruct (GEN _ _ _ _ R0 Hi) as (_ & _ & ? & _). }
  exists G. split; auto. split; [lia|]. intros i s a Hi. assert (I : (i < length rows)%nat) by (apply nth_error_Some; congruence).
  destruct (nth_error (tb_Snext (fb_t b)) i) as [s'|] eqn:N; [|apply nth_error_None in N; lia]. destruct (GEN _ _ _ _ Hi N) as (Hs & Ha & Hs' & HR & HE). destruct (BG _ _ N) as (x & X1 & X2). rewrite X2, HR. destruct (@BE s a Hs Ha) as (m & M1 & M2). rewrite M2.
  assert (D0 : 0 <= Dt) by (eapply Rle_trans; [apply Rabs_pos|exact (E s a Hs Ha)]).
  destruct (ends dyn s a).
  - rewrite HE. replace (reward dyn s a + 0 * x - (reward dyn s a + 0)) with 0 by lra. rewrite Rabs_R0. nra.
  - destruct HE as [-> ->]. replace (reward dyn s a + gamma * x - (reward dyn s a + gamma * m)) with (gamma * (x - m)) by lra. rewrite Rabs_mult, (Rabs_right gamma) by lra. apply Rmult_le_compat_l; [lra|]. eapply NX; [|exact X1|exact M1]. intros c Hc. cbv beta. now apply E.
Qed.

Lemma cell_step : forall n (w G : nat -> R) (sel : nat -> bool) e x Dt M, (1 <= n)%nat -> slope l' M cl ->
  (forall i, (i < n)%nat -> wl <= w i /\ lr * w i <= 1) -> (forall i, (i < n)%nat -> sel i = true -> Rabs (G i - x) <= gamma * Dt) -> Rabs e + gamma * Dt <= M ->
  exists bt, 0 <= bt <= 1 /\ (forall i, (i < n)%nat -> (n <= B)%nat -> sel i = true -> beta <= bt) /\
  Rabs (x + e - lr * (total (map (fun i => if sel i then w i * l' (G i) (x + e) else 0) (seq 0 n)) / INR n) - x) <= (1 - bt) * Rabs e + bt * (gamma * Dt).
Proof.
  intros n w G sel e x Dt M Hn SL Hw HG HM. assert (Pn : 0 < INR n) by (apply lt_0_INR; lia). assert (Pi : 0 < / INR n) by now apply Rinv_0_lt_compat.
  assert (C : exists c : nat -> R, forall i, (i < n)%nat -> sel i = true -> cl <= c i <= 1 /\ l' (G i) (x + e) = - (c i * (G i - (x + e)))).
  { assert (X : forall m, (m <= n)%nat -> exists c : nat -> R, forall i, (i < m)%nat -> sel i = true -> cl <= c i <= 1 /\ l' (G i) (x + e) = - (c i * (G i - (x + e)))).
    { induction m as [|m IH]; intros Hm; [exists (fun _ => 0); intros; lia|]. destruct IH as [c Hc]; [lia|]. destruct (sel m) eqn:Em.
      - destruct (SL (G m) (x + e)) as (cm & C1 & C2).
        { replace (G m - (x + e)) with ((G m - x) + (- e)) by lra. eapply Rle_trans; [apply Rabs_triang|]. rewrite Rabs_Ropp. specialize (HG m ltac:(lia) Em). lra. }
        exists (fun i => if Nat.eqb i m then cm else c i). intros i Hi Si. destruct (Nat.eqb_spec i m) as [->|]; [auto|apply Hc; auto; lia].
      - exists c. intros i Hi Si. apply Hc; auto. assert (i <> m) by congruence. lia. }
    apply X. lia. }
  destruct C as [c Hc].
  set (b := fun i => if sel i then lr * w i * c i * / INR n else 0). set (bt := total (map b (seq 0 n))). exists bt.
  assert (Hb : forall i, (i < n)%nat -> 0 <= b i <= / INR n). { intros i Hi. unfold b. destruct (sel i) eqn:Si; [|lra]. destruct (Hw i Hi), (Hc i Hi Si) as [[? ?] _]. assert (0 <= lr * w i * c i <= 1) by (split; [apply Rmult_le_pos; nra|nra]). split; [apply Rmult_le_pos; lra|]. rewrite <- (Rmult_1_l (/ INR n)) at 2. apply Rmult_le_compat_r; lra. }
  split; [|split].
  - assert (TB := @total_bounds (map b (seq 0 n)) 0 (/ INR n)). rewrite map_length, seq_length in TB. destruct TB as [T1 T2]; [intros y Hy; apply in_map_iff in Hy; destruct Hy as (i & <- & Hi); apply in_seq in Hi; apply Hb; lia|]. fold bt in T1, T2. rewrite Rinv_l in T2 by lra. lra.
  - intros i Hi HB Si. apply Rle_trans with (b i).
    + unfold b, beta. rewrite Si. destruct (Hw i Hi), (Hc i Hi Si) as [[? ?] _]. unfold Rdiv. assert (PB : 0 < INR B) by (apply lt_0_INR; lia). assert (/ INR B <= / INR n) by (apply Rinv_le_contravar; auto; apply le_INR; lia). assert (0 < / INR B) by now apply Rinv_0_lt_compat.
      apply Rmult_le_compat; try lra; [apply Rmult_le_pos; nra|]. apply Rmult_le_compat; try nra.
    + unfold bt. apply (@total_in_le _ b (seq 0 n) i); [intros j Hj; apply in_seq in Hj; apply Hb; lia|apply in_seq; lia].
  - assert (EQ : x + e - lr * (total (map (fun i => if sel i then w i * l' (G i) (x + e) else 0) (seq 0 n)) / INR n) - x = (1 - bt) * e + total (map (fun i => b i * (if sel i then G i - x else 0)) (seq 0 n))).
    { assert (Z : - lr * (total (map (fun i => if sel i then w i * l' (G i) (x + e) else 0) (seq 0 n)) / INR n) = total (map (fun i => b i * (if sel i then G i - x else 0) - e * b i) (seq 0 n))).
      { unfold Rdiv. rewrite (Rmult_comm (total _)), <- Rmult_assoc, <- total_scal. apply total_ext. intros i Hi. apply in_seq in Hi. unfold b. destruct (sel i) eqn:Si; [|lra]. destruct (Hc i ltac:(lia) Si) as [_ ->]. ring. }
      rewrite total_minus, total_scal in Z. fold bt in Z. lra. }
    rewrite EQ. destruct (@total_bounds (map b (seq 0 n)) 0 (/ INR n)) as [T1 T2]; [intros y Hy; apply in_map_iff in Hy; destruct Hy as (i & <- & Hi); apply in_seq in Hi; apply Hb; lia|]. rewrite map_length, seq_length in T1, T2. fold bt in T1, T2. rewrite Rinv_l in T2 by lra.
    eapply Rle_trans; [apply Rabs_triang|]. rewrite Rabs_mult, (Rabs_right (1 - bt)) by lra. apply Rplus_le_compat_l.
    assert (AB : forall (A : Type) (h k : A -> R) xs, (forall y, In y xs -> Rabs (h y) <= k y) -> Rabs (total (map h xs)) <= total (map k xs)).
    { clear. intros A h k xs. induction xs as [|y xs IH]; intros H; [cbn; rewrite Rabs_R0; lra|]. cbn [map]. rewrite !total_cons. eapply Rle_trans; [apply Rabs_triang|]. pose proof (H y (or_introl eq_refl)). assert (Rabs (total (map h xs)) <= total (map k xs)) by (apply IH; intros; apply H; now right). lra. }
    eapply Rle_trans; [apply (AB _ _ (fun i => gamma * Dt * b i))|rewrite total_scal; fold bt; lra].
    intros i Hi. apply in_seq in Hi. destruct (Hb i ltac:(lia)) as [? ?]. rewrite Rabs_mult, (Rabs_right (b i)) by lra. rewrite (Rmult_comm _ (b i)). destruct (sel i) eqn:Si; [apply Rmult_le_compat_l; auto; apply HG; auto; lia|]. unfold b. rewrite Si. lra.
Qed.
End Contraction.
