(** Tables trained with Adam and a target network that is not synchronised. *)
From Coq Require Import List Lia Bool Arith Reals Lra Psatz.
From Verif Require Import PyCommon CommonProofs UtilsModel UtilsSpec UtilsProofs2 UtilsProofs3 DistModel DistSpec DistProofs LossModel LossSpec LossProofs QModel QProofs TDModel TDSpec TDProofs TDProofs3 CoreModel CoreSpec CoreProofs CoreProofs2 LearnModel LearnSpec LearnProofs LearnProofs2 LearnProofs3 LearnProofs7 AdamModel AdamSpec AdamProofs AdamProofs2.
Import ListNotations.
Set Implicit Arguments.
Local Open Scope R_scope.

(** * Infinite runs *)
Section Infinite.
Variables (lr b1 b2 eps : R).
Hypotheses (H1 : 0 < b1 < 1) (H2 : 0 < b2 < 1).
Lemma forever : forall l g k f, keeps_training l g -> l 0%nat = new_learner k f (adam lr b1 b2 eps) -> forall n, inv lr b1 b2 eps (map g (seq 0 n)) (l n) /\ moved lr b1 b2 eps (map g (seq 0 (S n))) (l n) (l (S n)).
Proof.
  intros l g k f KT L0. assert (A : forall n, inv lr b1 b2 eps (map g (seq 0 n)) (l n) -> inv lr b1 b2 eps (map g (seq 0 (S n))) (l (S n)) /\ moved lr b1 b2 eps (map g (seq 0 (S n))) (l n) (l (S n))).
  { intros n I. destruct (KT n) as (M & gam & fs & m & E & SG & U). rewrite seq_S, map_app. cbn [map Nat.add]. destruct (@update_adam_inv lr b1 b2 eps H1 H2 M _ _ gam (g n) fs m _ I E SG U) as (I' & _ & _ & V). auto. }
  assert (B : forall n, inv lr b1 b2 eps (map g (seq 0 n)) (l n)) by (induction n as [|n IH]; [rewrite L0; apply inv_new|now apply A]). intros n. split; auto. now apply A.
Qed.
Lemma forever_obeys : forall l g k f path i x, keeps_training l g -> l 0%nat = new_learner k f (adam lr b1 b2 eps) -> (forall n, entry (f_params (l_func (l n))) path i = Some (x n)) -> obeys lr b1 b2 eps x (fun n => gradient_of (g n) path i).
Proof.
  intros l g k f path i x KT L0 X n. destruct (@forever l g k f KT L0 n) as [_ M]. specialize (M path i (x n) (X n)). rewrite (X (S n)) in M. injection M as ->. unfold history, upto. now rewrite map_map.
Qed.
End Infinite.

(** * Tables *)
Definition dslope (h : R -> R) (y cap : R) : Prop := forall x, (0 <= x - y -> Rmin (x - y) cap <= h x <= x - y) /\ (x - y <= 0 -> x - y <= h x <= - Rmin (y - x) cap).
Section Table.
Variables nS nA : nat.
Hypothesis HA : (1 <= nA)%nat.
Variable net : list R -> qfun nat R.
Hypothesis T : tabular nS nA net.
Variable dyn : nat -> nat -> nat * R * bool.
Variable gamma : R.
Variables (target : list R -> list R -> tbatch nat -> outcome (list R)) (val : valuation).
Hypothesis ST : sound_target nS nA target val.
Hypothesis NX : nonexpansive nA val.
Variables (l l' : R -> R -> R) (cap : R).
Hypothesis Dl : forall y h, derivable_pt_lim (l y) h (l' y h).
Hypothesis Hcap : 0 < cap.
Hypothesis SL : forall y, dslope (l' y) y cap.
Variables (grads : list R -> list R -> fbatch nat -> list R) (sub : nat -> nat -> bool).
Hypothesis GR : differentiates nS nA dyn gamma net target (zip_loss l) grads.
Variables (lr b1 b2 eps : R).
Hypotheses (Hlr : 0 < lr) (H1 : 0 < b1 <= b2) (H2 : b2 < 1) (He : 0 < eps).
Variables (f t : func) (th0 targ : list R).
Hypotheses (F0 : f_params f = wrap th0) (L0 : length th0 = (nS * nA)%nat) (T0 : f_params t = wrap targ) (LT : length targ = (nS * nA)%nat).
Variables (rows : nat -> list (nat * nat)) (b : nat -> fbatch nat) (B : nat).
Hypothesis GB : forall n, genuine nS nA dyn gamma (rows n) (b n) /\ (length (rows n) <= B)%nat.
Notation tq := (tq nA).
Notation ystep := (ystep nA net target (zip_loss l) grads sub).

Fixpoint ysq (n : nat) : sys := match n with O => mkSys (new_learner KTD f (adam lr b1 b2 eps)) (Some t) | S n' => fst (ystep (ysq n') (YUpdate (b n'))) end.
Definition thn (n : nat) : list R := match unwrap (q_params (ysq n)) with Some th => th | None => [] end.
Definition gn (n : nat) : gtree := wrap (map (@Some R) (grads (thn n) targ (b n))).
Lemma targets_exact : forall n, exists G, target (thn n) targ (fb_t (b n)) = Ok G /\ length G = length (rows n) /\
  forall i s a m, nth_error (rows n) i = Some (s, a) -> val (next dyn s a) (tq targ (next dyn s a)) m -> nth i G 0 = reward dyn s a + (if ends dyn s a then 0 else gamma * m).
Proof.
  intros n. destruct (GB n) as ((NE & HS & HAc & HW & L1 & L2 & L3 & GEN) & _).
  destruct (@ST (thn n) targ (fb_t (b n)) LT) as (G & TG & LG & BG); [split; lia| |].
  { intros s Hs. apply In_nth_error in Hs. destruct Hs as [i Hi]. assert (i < length (rows n))%nat by (rewrite <- L3; apply nth_error_Some; congruence). destruct (nth_error (rows n) i) as [[s0 a0]|] eqn:R0; [|apply nth_error_None in R0; lia]. now destruct (GEN _ _ _ _ R0 Hi) as (_ & _ & ? & _). }
  exists G. split; auto. split; [lia|]. intros i s a m Hi Hm. assert (I : (i < length (rows n))%nat) by (apply nth_error_Some; congruence).
  destruct (nth_error (tb_Snext (fb_t (b n))) i) as [s'|] eqn:N; [|apply nth_error_None in N; lia]. destruct (GEN _ _ _ _ Hi N) as (Hs & Ha & Hs' & HR & HE). destruct (BG _ _ N) as (x & X1 & X2). rewrite X2, HR.
  destruct (ends dyn s a).
  - rewrite HE. lra.
  - destruct HE as [-> ->]. assert (E : Rabs (x - m) <= 0) by (eapply NX; [|exact X1|exact Hm]; intros c Hc; cbv beta; rewrite Rminus_diag_eq by auto; rewrite Rabs_R0; lra). pose proof (Rabs_pos (x - m)). assert (x = m); [|subst; lra]. destruct (Req_dec x m) as [|NE']; auto. pose proof (Rabs_pos_lt (x - m)). lra.
Qed.
Lemma rows_ok : forall n s a, In (s, a) (rows n) -> (s < nS)%nat /\ (a < nA)%nat.
Proof.
  intros n s a I. destruct (GB n) as ((NE & HS & HAc & HW & L1 & L2 & L3 & GEN) & _). apply In_nth_error in I. destruct I as [i Hi]. assert (Li : (i < length (rows n))%nat) by (apply nth_error_Some; congruence). destruct (nth_error (tb_Snext (fb_t (b n))) i) as [s'|] eqn:N; [|apply nth_error_None in N; lia].
  destruct (GEN _ _ _ _ Hi N) as (Hs & Ha & _). auto.
Qed.
Lemma run : forall n, q_params (ysq n) = wrap (thn n) /\ length (thn n) = (nS * nA)%nat /\ y_targ (ysq n) = Some t /\ inv lr b1 b2 eps (map gn (seq 0 n)) (y_learner (ysq n)) /\
  ystep (ysq n) (YUpdate (b n)) = (ysq (S n), Ok tt) /\ length (grads (thn n) targ (b n)) = (nS * nA)%nat /\ forall i, (i < nS * nA)%nat -> nth i (thn (S n)) 0 = nth i (thn n) 0 - lr * astep b1 b2 eps (map (fun k => nth i (grads (thn k) targ (b k)) 0) (seq 0 (S n))).
Proof.
  assert (STEP : forall n, q_params (ysq n) = wrap (thn n) -> length (thn n) = (nS * nA)%nat -> y_targ (ysq n) = Some t -> inv lr b1 b2 eps (map gn (seq 0 n)) (y_learner (ysq n)) -> (forall k, (k < n)%nat -> length (grads (thn k) targ (b k)) = (nS * nA)%nat) ->
    q_params (ysq (S n)) = wrap (thn (S n)) /\ length (thn (S n)) = (nS * nA)%nat /\ y_targ (ysq (S n)) = Some t /\ inv lr b1 b2 eps (map gn (seq 0 (S n))) (y_learner (ysq (S n))) /\
    ystep (ysq n) (YUpdate (b n)) = (ysq (S n), Ok tt) /\ length (grads (thn n) targ (b n)) = (nS * nA)%nat /\ forall i, (i < nS * nA)%nat -> nth i (thn (S n)) 0 = nth i (thn n) 0 - lr * astep b1 b2 eps (map (fun k => nth i (grads (thn k) targ (b k)) 0) (seq 0 (S n)))).
  { intros n Q L Y I LG. pose proof (GB n) as [GE _]. pose proof (@GR (thn n) targ (rows n) (b n) L LT GE) as GD. destruct (targets_exact n) as (G & TG & LGG & _). destruct GE as (NE & HS & HAc & HW & _).
    destruct (@loss_ok nS nA net T l target (rows n) (b n) (thn n) targ G (thn n) HS HAc HW LGG NE (@rows_ok n) TG L) as [v V]. assert (LN : length (grads (thn n) targ (b n)) = (nS * nA)%nat) by (rewrite (proj1 GD); exact L).
    assert (E : grads_and_metrics nA net target (zip_loss l) grads (targ_params (ysq n)) (b n) (f_params (l_func (y_learner (ysq n)))) (f_state (l_func (y_learner (ysq n)))) (f_key (l_func (y_learner (ysq n)))) = Ok (gn n, f_state (l_func (y_learner (ysq n))), tt)).
    { unfold grads_and_metrics. fold (q_params (ysq n)). rewrite Q. unfold targ_params. rewrite Y, T0, !unwrap_wrap, V. reflexivity. }
    destruct (@update_adam lr b1 b2 eps ltac:(lra) ltac:(lra) unit _ _ _ (gn n) _ tt I E (@wrap_no_nan _)) as (l2 & U & I2 & _ & _ & _ & S2 & M2).
    { fold (q_params (ysq n)). rewrite Q. unfold gn, wrap. cbn [shape map]. rewrite map_length, LN. now rewrite L. }
    { reflexivity. }
    assert (YS : ystep (ysq n) (YUpdate (b n)) = (mkSys l2 (y_targ (ysq n)), Ok tt)) by (unfold LearnModel.ystep; rewrite U; reflexivity).
    assert (NX1 : ysq (S n) = mkSys l2 (y_targ (ysq n))) by (cbn [ysq]; rewrite YS; reflexivity).
    fold (q_params (ysq n)) in S2. rewrite Q in S2. assert (QP : exists th', f_params (l_func l2) = wrap th' /\ length th' = (nS * nA)%nat).
    { unfold wrap in S2. cbn in S2. destruct (f_params (l_func l2)) as [|k1 [|[|k2 [|[th'|] [|]]] [|]]]; cbn in S2; try discriminate. injection S2 as -> -> Lx. exists th'. split; [reflexivity|lia]. }
    destruct QP as (th' & QP & LP). assert (TN : thn (S n) = th') by (unfold thn; rewrite NX1; unfold q_params; cbn [y_learner]; rewrite QP; reflexivity).
    rewrite NX1. unfold q_params. cbn [y_learner y_targ]. rewrite TN. split; auto. split; auto. split; auto. split; [rewrite seq_S, map_app; exact I2|]. split; [exact YS|]. split; [exact LN|]. intros i Hi.
    assert (EN : forall x, length x = (nS * nA)%nat -> entry (wrap x) [0; 0]%nat i = Some (nth i x 0)) by (intros x Lx; unfold entry, wrap; cbn [leaf_at nth_error]; apply nth_error_nth'; lia).
    specialize (M2 [0; 0]%nat i (nth i (thn n) 0)). fold (q_params (ysq n)) in M2. rewrite Q, QP, !EN in M2 by auto. specialize (M2 eq_refl). injection M2 as ->. f_equal. f_equal. f_equal. unfold history. rewrite seq_S, !map_app, map_map. cbn [map Nat.add].
    assert (GO : forall k, length (grads (thn k) targ (b k)) = (nS * nA)%nat -> gradient_of (gn k) [0; 0]%nat i = nth i (grads (thn k) targ (b k)) 0).
    { intros k Lk. unfold gradient_of, gn, wrap. cbn [leaf_at nth_error]. rewrite nth_error_map. rewrite (@nth_error_nth' _ _ _ 0) by lia. reflexivity. }
    rewrite GO by auto. f_equal. apply map_ext_in. intros k Hk. apply in_seq in Hk. apply GO, LG. lia. }
  assert (ALL : forall n, q_params (ysq n) = wrap (thn n) /\ length (thn n) = (nS * nA)%nat /\ y_targ (ysq n) = Some t /\ inv lr b1 b2 eps (map gn (seq 0 n)) (y_learner (ysq n)) /\ (forall k, (k < n)%nat -> length (grads (thn k) targ (b k)) = (nS * nA)%nat)).
  { induction n as [|n (A1 & A2 & A3 & A4 & A5)].
    - assert (TH : thn 0 = th0) by (unfold thn, q_params; cbn; rewrite F0; reflexivity). unfold q_params. cbn [ysq y_learner y_targ new_learner l_func]. rewrite TH. split; auto. split; auto. split; auto. split; [apply inv_new|]. intros; lia.
    - destruct (@STEP n A1 A2 A3 A4 A5) as (C1 & C2 & C3 & C4 & _ & C6 & _). split; auto. split; auto. split; auto. split; auto. intros k Hk. destruct (Nat.eq_dec k n) as [->|]; auto. apply A5. lia. }
  intros n. destruct (ALL n) as (A1 & A2 & A3 & A4 & A5). destruct (@STEP n A1 A2 A3 A4 A5) as (_ & _ & _ & _ & C5 & C6 & C7). auto 10.
Qed.
Variables (s a N : nat) (m : R).
Hypotheses (Hs : (s < nS)%nat) (Ha : (a < nA)%nat) (Hm : val (next dyn s a) (tq targ (next dyn s a)) m).
Hypothesis VI : forall n, exists j, (n <= j < n + N)%nat /\ In (s, a) (rows j).
Definition goal : R := reward dyn s a + (if ends dyn s a then 0 else gamma * m).
Lemma wbounds : forall w, 1 / 10 <= Rmax (1/10) (Rmin w 10) <= 10.
Proof. intros w. unfold Rmax, Rmin. repeat destruct (Rle_dec _ _); lra. Qed.
Lemma cell : forall n, exists kap, 0 <= kap <= 10 /\ (In (s, a) (rows n) -> / (10 * INR B) <= kap) /\ (~ In (s, a) (rows n) -> kap = 0) /\ tq (grads (thn n) targ (b n)) s a = kap * l' goal (tq (thn n) s a).
Proof.
  intros n. destruct (run n) as (_ & L & _). pose proof (GB n) as [GE LB]. pose proof (@GR (thn n) targ (rows n) (b n) L LT GE) as GD. destruct (targets_exact n) as (G & TG & LGG & EX). destruct GE as (NE & HS & HAc & HW & _).
  rewrite (@table_gradient_cell nS nA HA net T l l' Dl target (rows n) (b n) (thn n) targ G (thn n) HS HAc HW LGG NE (@rows_ok n) TG L _ s a GD Hs Ha). unfold cell_grad.
  set (K := length (rows n)) in *. assert (KP : (1 <= K)%nat) by (unfold K; destruct (rows n); [congruence|cbn; lia]). assert (K0 : 0 < INR K) by (apply lt_0_INR; lia). assert (KB : INR K <= INR B) by now apply le_INR.
  set (w := fun i => if same_pair (nth i (rows n) (0, 0)%nat) (s, a) then Rmax (1/10) (Rmin (nth i (fb_W (b n)) 0) 10) else 0). exists (total (map w (seq 0 K)) / INR K).
  assert (W0 : forall i, 0 <= w i <= 10) by (intros i; unfold w; destruct (same_pair _ _); [pose proof (wbounds (nth i (fb_W (b n)) 0)); lra|lra]).
  split; [|split; [|split]].
  - split; [apply Rmult_le_pos; [|apply Rlt_le, Rinv_0_lt_compat; lra]|].
    + rewrite <- (Rmult_0_r (INR (length (seq 0 K)))), <- total_const. apply total_le. intros. apply W0.
    + apply Rmult_le_reg_r with (INR K); auto. unfold Rdiv. rewrite Rmult_assoc, Rinv_l by lra. rewrite Rmult_1_r, Rmult_comm. rewrite <- (seq_length K 0) at 2. rewrite <- total_const. apply total_le. intros. apply W0.
  - intros I. destruct (In_nth _ _ (0, 0)%nat I) as (i & Hi & Ei). assert (LW : w i <= total (map w (seq 0 K))) by (apply (total_in_le w); [intros; apply W0|apply in_seq; fold K in Hi; lia]).
    assert (WI : 1 / 10 <= w i). { unfold w. rewrite Ei. assert (X : same_pair (s, a) (s, a) = true) by now apply same_pair_spec. rewrite X. apply wbounds. }
    apply Rle_trans with (1 / 10 / INR K); [|apply Rmult_le_compat_r; [apply Rlt_le, Rinv_0_lt_compat; lra|lra]]. rewrite Rinv_mult. unfold Rdiv. rewrite Rmult_1_l. apply Rmult_le_compat_l; [lra|]. apply Rinv_le_contravar; lra.
  - intros NI. rewrite (@total_ext _ w (fun _ => 0)); [rewrite total_const; unfold Rdiv; rewrite Rmult_0_r; apply Rmult_0_l|]. intros i Hi. apply in_seq in Hi. unfold w. destruct (same_pair (nth i (rows n) (0, 0)%nat) (s, a)) eqn:SP; auto. apply same_pair_spec in SP. exfalso. apply NI. rewrite <- SP. apply nth_In. fold K. lia.
  - unfold Rdiv. rewrite (Rmult_comm (total (map w (seq 0 K)) * / INR K)), <- Rmult_assoc, (Rmult_comm _ (total (map w _))). rewrite (Rmult_comm (total (map w (seq 0 K)))). rewrite <- total_scal. f_equal. apply total_ext. intros i Hi. apply in_seq in Hi. unfold w. destruct (same_pair (nth i (rows n) (0, 0)%nat) (s, a)) eqn:SP; [|lra]. apply same_pair_spec in SP.
    rewrite clip_w_nth by lia. rewrite wclip. rewrite (EX i s a m); [unfold goal; ring| |exact Hm]. rewrite <- SP. apply nth_error_nth'. fold K. lia.
Qed.
Lemma again : forall T0, exists n, (T0 <= n)%nat /\ Rabs (tq (thn n) s a - goal) <= lr * sqrt ((1 - b1) / (1 - b2)).
Proof.
  assert (BP : 0 < INR B) by (destruct (GB 0) as [(NE & _) LB]; apply lt_0_INR; destruct (rows 0); [congruence|cbn in LB; lia]).
  assert (XX := index_lt Hs Ha). pose proof (@rho_pos lr b1 b2 Hlr H1 H2) as RP. set (r := rho lr b1 b2) in *.
  assert (CP : 0 < Rmin r cap) by (now apply Rmin_glb_lt).
  assert (IB : 0 < / (10 * INR B)) by (apply Rinv_0_lt_compat; lra).
  apply (@recurs lr b1 b2 eps Hlr H1 H2 He (fun n => tq (thn n) s a) (fun n => tq (grads (thn n) targ (b n)) s a) goal (/ (10 * INR B) * Rmin r cap) 10 N).
  - intros n. destruct (run n) as (_ & _ & _ & _ & _ & _ & V). unfold LearnProofs.tq, upto. apply V. exact XX.
  - now apply Rmult_lt_0_compat.
  - lra.
  - split; [|split].
    + intros n Hn. fold r in Hn. destruct (cell n) as (kap & K1 & _ & _ & ->). destruct (SL goal (tq (thn n) s a)) as [S1 _]. specialize (S1 ltac:(lra)). assert (0 < Rmin (tq (thn n) s a - goal) cap) by (apply Rmin_glb_lt; lra). split; nra.
    + intros n Hn. fold r in Hn. destruct (cell n) as (kap & K1 & _ & _ & ->). destruct (SL goal (tq (thn n) s a)) as [_ S1]. specialize (S1 ltac:(lra)). assert (0 < Rmin (goal - tq (thn n) s a) cap) by (apply Rmin_glb_lt; lra). split; nra.
    + intros n. destruct (VI n) as (j & Hj & I). exists j. split; auto. destruct (cell j) as (kap & K1 & K2 & _ & ->). specialize (K2 I). destruct (SL goal (tq (thn j) s a)) as [S1 S2]. split; intros Hn; fold r in Hn.
      * specialize (S1 ltac:(lra)). assert (Rmin r cap <= Rmin (tq (thn j) s a - goal) cap) by (apply Rle_min_compat_r; lra). apply Rmult_le_compat; lra.
      * specialize (S2 ltac:(lra)). assert (Rmin r cap <= Rmin (goal - tq (thn j) s a) cap) by (apply Rle_min_compat_r; lra). assert (/ (10 * INR B) * Rmin r cap <= kap * - l' goal (tq (thn j) s a)) by (apply Rmult_le_compat; lra). lra.
Qed.
(** A pair of the first batch that is in none of the next ones. *)
Lemma others_move : forall n, In (s, a) (rows 0) -> (forall k, (1 <= k <= n)%nat -> ~ In (s, a) (rows k)) -> (tq th0 s a - goal) * (tq (thn (S n)) s a - tq (thn n) s a) < 0 \/ tq th0 s a = goal.
Proof.
  intros n I0 NI. assert (BP : 0 < INR B) by (destruct (GB 0) as [(NE & _) LB]; apply lt_0_INR; destruct (rows 0); [congruence|cbn in LB; lia]). destruct (Req_dec (tq th0 s a) goal) as [|NE]; [now right|left].
  assert (XX := index_lt Hs Ha). destruct (run n) as (_ & _ & _ & _ & _ & _ & V). specialize (V (s * nA + a)%nat XX). fold (tq (thn (S n)) s a) in V. fold (tq (thn n) s a) in V. rewrite V. cbn [seq map].
  fold (tq (grads (thn 0) targ (b 0)) s a). set (g0 := tq (grads (thn 0) targ (b 0)) s a).
  assert (TH : thn 0 = th0) by (unfold thn, q_params; cbn; rewrite F0; reflexivity).
  destruct (cell 0) as (kap & K1 & K2 & _ & E0). specialize (K2 I0). fold g0 in E0. rewrite TH in E0. assert (IB : 0 < / (10 * INR B)) by (apply Rinv_0_lt_compat; lra).
  assert (SG : (tq th0 s a - goal) * g0 > 0).
  { rewrite E0. destruct (SL goal (tq th0 s a)) as [S1 S2]. destruct (Rlt_le_dec 0 (tq th0 s a - goal)) as [P|Q].
    - specialize (S1 ltac:(lra)). assert (0 < Rmin (tq th0 s a - goal) cap) by (apply Rmin_glb_lt; lra). apply Rmult_gt_0_compat; [lra|]. apply Rmult_gt_0_compat; lra.
    - specialize (S2 ltac:(lra)). assert (0 < Rmin (goal - tq th0 s a) cap) by (apply Rmin_glb_lt; lra). replace ((tq th0 s a - goal) * (kap * l' goal (tq th0 s a))) with ((goal - tq th0 s a) * (kap * - l' goal (tq th0 s a))) by ring. apply Rmult_gt_0_compat; [lra|]. apply Rmult_gt_0_compat; lra. }
  assert (Z : forall x, In x (map (fun k => nth (s * nA + a) (grads (thn k) targ (b k)) 0) (seq 1 n)) -> x = 0).
  { intros x Ix. apply in_map_iff in Ix. destruct Ix as (k & <- & Hk). apply in_seq in Hk. fold (tq (grads (thn k) targ (b k)) s a). destruct (cell k) as (kk & _ & _ & K0 & ->). rewrite K0 by (apply NI; lia). ring. }
  destruct (@astep_tail b1 b2 eps g0 _ ltac:(lra) ltac:(lra) He Z) as (c & C & E). rewrite E. replace ((tq th0 s a - goal) * (tq (thn n) s a - lr * (c * g0) - tq (thn n) s a)) with (- (lr * (c * ((tq th0 s a - goal) * g0)))) by ring. assert (0 < lr * (c * ((tq th0 s a - goal) * g0))); [|lra]. apply Rmult_lt_0_compat; auto. apply Rmult_lt_0_compat; auto.
Qed.
End Table.
Lemma dslope_mse : forall y, dslope (fun h => h - y) y 1.
Proof. intros y x. split; intros H; split; try lra; [apply Rmin_l|]. assert (Rmin (y - x) 1 <= y - x) by apply Rmin_l. lra. Qed.
Lemma dslope_huber : forall d y, 0 < d -> dslope (fun h => clip (h - y) (- d) d) y d.
Proof. intros d y Hd x. unfold clip, Rmin, Rmax. split; intros H; repeat destruct (Rle_dec _ _); lra. Qed.
