From Coq Require Import List Lia Bool Arith Reals Lra.
From Verif Require Import PyCommon CommonProofs UtilsModel UtilsSpec UtilsProofs2 UtilsProofs3 WrappersProofs DistModel DistSpec DistProofs DistProofs2 DistProofs3 LossModel LossSpec LossProofs QModel QProofs QProps TDModel TDSpec TDProofs TDProofs2 TDProofs3 TDProofs4 CoreModel CoreSpec CoreProofs LearnModel LearnSpec LearnProofs LearnProofs2 LearnProofs3 LearnProofs4 LearnProofs5 LearnProofs6 LearnProofs7 NoiseSpec NoiseProofs NoiseProofs2 NoiseProofs3 DblModel DblSpec DblProofs DblProofs2 DblProofs3 DblProofs4.
From Verif Require Import VtModel VtSpec.
Import ListNotations.
Set Implicit Arguments.
Local Open Scope R_scope.

Lemma genuine_boot_t : forall nS nA dyn gamma f g rows b (boot : nat -> nat -> R -> Prop) G, (1 <= nA)%nat -> genuine nS nA dyn gamma rows b -> bootstrapped f g (fb_t b) boot G ->
  length G = length rows /\ forall i s a, nth_error rows i = Some (s, a) -> (s < nS)%nat /\ (a < nA)%nat /\ exists s' x, (s' < nS)%nat /\ boot i s' x /\ nth i G 0 = f (reward dyn s a + (if ends dyn s a then 0 else gamma * g x)) /\ (ends dyn s a = false -> s' = next dyn s a).
Proof.
  intros nS nA dyn gamma f g rows b boot G HA (NE & HS & HAc & HW & L1 & L2 & L3 & GE) [LG BG]. split; [lia|]. intros i s a Hi. assert (I : (i < length rows)%nat) by (apply nth_error_Some; congruence).
  destruct (nth_error (tb_Snext (fb_t b)) i) as [s'|] eqn:N; [|apply nth_error_None in N; lia]. destruct (GE _ _ _ _ Hi N) as (Hs & Ha & Hs' & HR & HE). destruct (BG _ _ N) as (x & X1 & X2). split; auto. split; auto. exists s', x. split; auto. split; auto. rewrite X2, HR. destruct (ends dyn s a); [rewrite HE; split; [do 2 f_equal; lra|discriminate]|]. destruct HE as [-> ->]. auto.
Qed.
Lemma tab_call_t : forall nS nA net g, tabular nS nA net -> forall th s a, length th = (nS * nA)%nat -> (s < nS)%nat -> (a < nA)%nat -> q_call_a (Some nA) (one_hot nA) g (net th) s a = Ok (g (tq nA th s a)).
Proof.
  intros nS nA net g T th s a L Hs Ha. pose proof (tab_call T th L Hs Ha) as E. unfold q_call_a in *. destruct (function_type1 (Some nA) dot (net th) [s] [one_hot nA a]) as [[|x Q]|]; cbn [bind map] in *; try discriminate. injection E as ->. reflexivity.
Qed.
(** * Transforms *)
Section Trans.
Variables f g : R -> R.
Hypothesis IV : inverse_pair f g.
Hypothesis INC : increasing f.
Lemma f_le : forall x y, x <= y -> f x <= f y.
Proof. intros x y [H| ->]; [left; now apply INC|lra]. Qed.
Lemma f_le_inv : forall x y, f x <= f y -> x <= y.
Proof. intros x y H. destruct (Rle_or_lt x y) as [|C]; auto. apply INC in C. lra. Qed.
Lemma g_le : forall x y, x <= y -> g x <= g y.
Proof. intros x y H. apply f_le_inv. destruct IV as [_ FG]. now rewrite !FG. Qed.
Lemma g_max : forall n h m, is_maximum n h m -> is_maximum n (fun a => g (h a)) (g m).
Proof. intros n h m [(a & Ha & E) U]. split; [exists a; split; auto; now rewrite E|]. intros c Hc. apply g_le. auto. Qed.
Lemma around : forall x v D, Rabs (g x - v) <= D <-> f (v - D) <= x <= f (v + D).
Proof.
  destruct IV as [_ FG]. intros x v D. rewrite <- (FG x) at 2 3. split.
  - intros H. split; apply f_le; revert H; unfold Rabs; destruct (Rcase_abs (g x - v)); lra.
  - intros [H1 H2]. apply f_le_inv in H1. apply f_le_inv in H2. apply Rabs_le. lra.
Qed.
(** A mixture of transformed values: the error of the inverse. *)
Lemma mix_err : forall v D0 m M c x x' e E, 0 < m <= M -> (forall x y, v - D0 <= x -> x <= y -> y <= v + D0 -> m * (y - x) <= f y - f x <= M * (y - x)) -> 0 <= c <= 1 -> 0 <= E <= D0 -> e = Rabs (g x - v) -> e <= D0 ->
  (1 - c) * x + c * f (v - E) <= x' <= (1 - c) * x + c * f (v + E) -> exists c', 0 <= c' <= 1 /\ m / M * c <= c' /\ Rabs (g x' - v) <= (1 - c') * e + c' * E.
Proof.
  intros v D0 m M c x x' e E HM SL Hc HE He HeD [H1 H2]. assert (P : 0 <= e) by (rewrite He; apply Rabs_pos). assert (HX : f (v - e) <= x <= f (v + e)) by (apply around; lra).
  assert (RHO : 0 < m / M <= 1). { split; [apply Rdiv_lt_0_compat; lra|]. apply (Rmult_le_reg_r M); [lra|]. unfold Rdiv. rewrite Rmult_assoc, Rinv_l by lra. lra. }
  assert (RM : m / M * M = m) by (field; lra). set (rho := m / M) in *. clearbody rho.
  assert (RC : 0 <= rho * c <= 1) by (split; [apply Rmult_le_pos; lra|nra]).
  destruct (Rle_or_lt E e) as [EE|EE].
  - exists (rho * c). split; auto. split; [lra|]. set (d := rho * c * (e - E)). assert (Hd : 0 <= d <= e - E) by (unfold d; split; [apply Rmult_le_pos; lra|nra]). replace ((1 - rho * c) * e + rho * c * E) with (e - d) by (unfold d; ring). apply around.
    assert (MD : M * d = c * (m * (e - E))) by (unfold d; rewrite <- RM; ring).
    destruct (SL (v + (e - d)) (v + e)) as [_ U1]; try lra. destruct (SL (v + E) (v + e)) as [U2 _]; try lra. destruct (SL (v - e) (v - (e - d))) as [_ U3]; try lra. destruct (SL (v - e) (v - E)) as [U4 _]; try lra.
    assert ((1 - c) * x <= (1 - c) * f (v + e)) by (apply Rmult_le_compat_l; lra). assert ((1 - c) * f (v - e) <= (1 - c) * x) by (apply Rmult_le_compat_l; lra).
    assert (c * (m * (v + e - (v + E))) <= c * (f (v + e) - f (v + E))) by (apply Rmult_le_compat_l; lra). assert (c * (m * (v - E - (v - e))) <= c * (f (v - E) - f (v - e))) by (apply Rmult_le_compat_l; lra).
    replace (v + e - (v + E)) with (e - E) in * by ring. replace (v - E - (v - e)) with (e - E) in * by ring. replace (v + e - (v + (e - d))) with d in U1 by ring. replace (v - (e - d) - (v - e)) with d in U3 by ring. lra.
  - exists 1. split; [lra|]. split; [lra|]. replace ((1 - 1) * e + 1 * E) with E by ring. apply around.
    pose proof (@f_le (v + e) (v + E) ltac:(lra)). pose proof (@f_le (v - E) (v - e) ltac:(lra)).
    assert ((1 - c) * x <= (1 - c) * f (v + E)) by (apply Rmult_le_compat_l; lra). assert ((1 - c) * f (v - E) <= (1 - c) * x) by (apply Rmult_le_compat_l; lra). lra.
Qed.
End Trans.

(** * QLearning *)
Section Run.
Variables nS nA : nat.
Hypothesis HA : (1 <= nA)%nat.
Variable net : list R -> qfun nat R.
Hypothesis T : tabular nS nA net.
Variable dyn : nat -> nat -> nat * R * bool.
Hypothesis CL : closed nS nA dyn.
Variable gamma : R.
Hypothesis Hg : 0 <= gamma <= 1.
Variables f g : R -> R.
Hypothesis IV : inverse_pair f g.
Hypothesis INC : increasing f.
Variable q : nat -> nat -> R.
Hypothesis BE : bellman nS nA dyn gamma (by_max nA) q.
Variables D0 m Mf : R.
Hypothesis HD0 : 0 <= D0.
Hypothesis HM : 0 < m <= Mf.
Hypothesis SL : slopes nS nA f q D0 m Mf.
Variables (loss : list R -> list R -> option (list R) -> outcome (option R)) (grads : list R -> list R -> fbatch nat -> list R) (sub : nat -> nat -> bool).
Variables (cl lr wl : R) (B : nat).
Hypothesis PL : pulls loss (Mf * ((1 + gamma) * D0)) cl.
Hypothesis GR : differentiates nS nA dyn gamma net (target_q_t nA net f g) loss grads.
Hypothesis Hlr : 0 < lr.
Hypothesis Hwl : 0 < wl.
Hypothesis Hb : 0 <= beta cl lr wl B <= 1.
Notation tq := (tq nA).
Notation ystep := (ystep nA net (target_q_t nA net f g) loss grads sub).
Notation yrun := (yrun nA net (target_q_t nA net f g) loss grads sub).
Notation op_ok := (op_ok nS nA dyn gamma lr wl B).
Notation ok := (ok_sys nS nA sub lr).
Definition err (p : ptree) (i s a : nat) : R := Rabs (g (tq (tab p) s a) - q s a).
Definition sync1 (o : yop) : option (nat * R) := match o with YUpdate _ => None | YSync tau => Some (0%nat, m / Mf * tau) end.
Lemma rho01 : 0 < m / Mf <= 1.
Proof. split; [apply Rdiv_lt_0_compat; lra|]. apply (Rmult_le_reg_r Mf); [lra|]. unfold Rdiv. rewrite Rmult_assoc, Rinv_l by lra. lra. Qed.
Lemma target_q_t_boot : forall th0 targ b, length targ = (nS * nA)%nat -> well_formed b -> (forall s, In s (tb_Snext b) -> (s < nS)%nat) ->
  exists out, target_q_t nA net f g th0 targ b = Ok out /\ bootstrapped f g b (fun _ s x => is_maximum nA (tq targ s) x) out.
Proof.
  intros th0 targ b L WF Hs. destruct (T _ L) as [W Q]. unfold target_q_t. rewrite (@q_learning_eval nat nA) by auto. apply finish_rows; auto; [now rewrite map_length|]. intros k s Hk. rewrite (nth_map_error _ _ _ Hk). assert (In s (tb_Snext b)) by (eapply nth_error_In; eauto). rewrite (tab_qvals HA T) by auto.
  rewrite Q by (auto; rewrite greedy_length, map_length, seq_length; auto). rewrite greedy_max by (intros E; apply (f_equal (@length R)) in E; rewrite map_length, seq_length in E; cbn in E; lia). apply (@rowmax_is nA); auto.
Qed.
Lemma targets_near : forall rows b targ G D, 0 <= D <= D0 -> genuine nS nA dyn gamma rows b -> (forall s a, (s < nS)%nat -> (a < nA)%nat -> Rabs (g (tq targ s a) - q s a) <= D) ->
  bootstrapped f g (fb_t b) (fun _ s x => is_maximum nA (tq targ s) x) G -> length G = length rows /\ forall i s a, nth_error rows i = Some (s, a) -> (s < nS)%nat /\ (a < nA)%nat /\ f (q s a - gamma * D) <= nth i G 0 <= f (q s a + gamma * D).
Proof.
  intros rows b targ G D HD GEN E BG. destruct (genuine_boot_t HA GEN BG) as [LG RW]. split; auto. intros i s a Hi. destruct (RW i s a Hi) as (Hs & Ha & s' & x & Hs' & Mx & -> & EN). split; auto. split; auto.
  destruct (BE Hs Ha) as (mq & Mq & ->). assert (0 <= gamma * D) by (apply Rmult_le_pos; lra).
  assert (X : ends dyn s a = false -> Rabs (g x - mq) <= D). { intros En. rewrite (EN En) in *. apply (@maximum_close nA (fun c => g (tq targ (next dyn s a) c)) (q (next dyn s a)) (g x) mq D); auto. now apply g_max with f. }
  split; apply (f_le INC); (destruct (ends dyn s a); [lra|]); specialize (X eq_refl).
  - assert (gamma * (mq - D) <= gamma * g x) by (apply Rmult_le_compat_l; [lra|]; revert X; unfold Rabs; destruct (Rcase_abs (g x - mq)); lra). lra.
  - assert (gamma * g x <= gamma * (mq + D)) by (apply Rmult_le_compat_l; [lra|]; revert X; unfold Rabs; destruct (Rcase_abs (g x - mq)); lra). lra.
Qed.
Lemma upd_t : forall y o D, 0 <= D <= D0 -> ok y -> lek 1 nS nA (err (q_params y)) D -> lek 1 nS nA (err (targ_params y)) D -> op_ok o -> sync1 o = None ->
  exists y', ystep y o = (y', Ok tt) /\ ok y' /\ has_targ y' = has_targ y /\
  (forall i s a, inb 1 nS nA i s a -> exists c, 0 <= c <= 1 /\ (visits nA o s a -> m / Mf * beta cl lr wl B <= c) /\ err (q_params y') i s a <= (1 - c) * err (q_params y) i s a + c * (gamma * D)) /\
  (forall i s a, inb 1 nS nA i s a -> err (targ_params y') i s a <= if has_targ y then err (targ_params y) i s a else err (q_params y') i s a).
Proof.
  intros y o D HD (SG & [Q L] & [P Lt]) EQ ET OK NS. destruct o as [b|tau]; [|discriminate]. destruct OK as (rows & GEN & WF & LB). destruct (genuine_states HA GEN) as [WFb HSb].
  destruct (@target_q_t_boot (tab (q_params y)) (tab (targ_params y)) (fb_t b) Lt WFb HSb) as (G & TG & BG).
  destruct (@targets_near rows b (tab (targ_params y)) G D HD GEN) as [LG RB]; auto. { intros s a Hs Ha. apply (ET 0%nat). repeat split; auto. }
  pose proof rho01 as RHO. assert (GD : 0 <= gamma * D <= D) by (split; [apply Rmult_le_pos; lra|nra]).
  destruct (@mix_update nS nA HA net T dyn gamma (target_q_t nA net f g) loss grads sub _ cl lr wl B PL Hlr Hwl y _ _ rows b G (fun s a => f (q s a - gamma * D)) (fun s a => f (q s a + gamma * D)) SG Q L P GEN WF LB) as (y' & th' & Y1 & Y2 & Y3 & Y4 & Y5 & C); auto.
  { now apply GR with rows. }
  { intros i s a Hi. destruct (RB i s a Hi) as (Hs & Ha & G1 & G2). split; auto. assert (E : Rabs (g (tq (tab (q_params y)) s a) - q s a) <= D) by (apply (EQ 0%nat); repeat split; auto). apply (around IV INC) in E. destruct E as [E1 E2].
    destruct (@SL s a (q s a - D) (q s a + gamma * D) Hs Ha) as [_ U1]; try lra. destruct (@SL s a (q s a - gamma * D) (q s a + D) Hs Ha) as [_ U2]; try lra.
    replace (q s a + gamma * D - (q s a - D)) with ((1 + gamma) * D) in U1 by ring. replace (q s a + D - (q s a - gamma * D)) with ((1 + gamma) * D) in U2 by ring.
    assert (Mf * ((1 + gamma) * D) <= Mf * ((1 + gamma) * D0)) by (apply Rmult_le_compat_l; [lra|]; apply Rmult_le_compat_l; lra). apply Rabs_le. lra. }
  exists y'. split; auto. assert (TY : tab (q_params y') = th') by (rewrite Y4; reflexivity).
  assert (TP : targ_params y' = if has_targ y then targ_params y else q_params y'). { unfold targ_params, has_targ. rewrite Y3. destruct (y_targ y); reflexivity. }
  split; [split; auto; split; [split; [now rewrite TY|congruence]|rewrite TP; destruct (has_targ y); split; auto; [now rewrite TY|congruence]]|]. split; [unfold has_targ; now rewrite Y3|]. split; [|intros; rewrite TP; destruct (has_targ y); lra].
  intros i s a (Hi & Hs & Ha). destruct (C s a Hs Ha) as (c & C1 & C2 & C3). unfold err. rewrite TY.
  assert (ED : Rabs (g (tq (tab (q_params y)) s a) - q s a) <= D) by (apply (EQ 0%nat); repeat split; auto).
  destruct (@mix_err f g IV INC (q s a) D0 m Mf c (tq (tab (q_params y)) s a) (tq th' s a) _ (gamma * D) HM (fun x y => @SL s a x y Hs Ha) C1 ltac:(lra) eq_refl ltac:(lra) C3) as (c' & K1 & K2 & K3).
  exists c'. split; auto. split; auto. intros V. specialize (C2 V). apply Rle_trans with (m / Mf * c); auto. apply Rmult_le_compat_l; lra.
Qed.
Lemma snc_t : forall y o j tau, ok y -> lek 1 nS nA (err (q_params y)) D0 -> lek 1 nS nA (err (targ_params y)) D0 -> op_ok o -> sync1 o = Some (j, tau) -> has_targ y = true ->
  exists y', ystep y o = (y', Ok tt) /\ ok y' /\ has_targ y' = true /\
  forall i s a, inb 1 nS nA i s a -> err (q_params y') i s a <= err (q_params y) i s a /\
    if Nat.eqb i j then exists c, tau <= c <= 1 /\ err (targ_params y') i s a <= (1 - c) * err (targ_params y) i s a + c * err (q_params y) i s a else err (targ_params y') i s a <= err (targ_params y) i s a.
Proof.
  intros y o j tau (SG & [Q L] & [P Lt]) EQ ET OK Y Ht. destruct o as [b|tau']; [discriminate|]. injection Y as <- <-. cbn in OK. unfold has_targ in Ht. destruct (y_targ y) as [t|] eqn:E; [|discriminate].
  destruct (@ystep_sync nA net (target_q_t nA net f g) loss grads sub lr y tau' _ _ t SG E Q P) as (y' & t' & Y1 & Y2 & Y3 & Y4 & Y5); [lia|]. exists y'. split; auto.
  assert (T1 : tab (q_params y') = tab (q_params y)) by (rewrite Y4; reflexivity). assert (T2 := f_equal tab Y5). unfold tab in T2 at 2. cbn [unwrap wrap] in T2.
  split; [split; auto; split; split; [now rewrite T1|congruence|rewrite T2; exact Y5|rewrite T2, map_length, seq_length; exact Lt]|]. split; [unfold has_targ; now rewrite Y3|].
  intros i s a (Hi & Hs & Ha). replace i with 0%nat by lia. cbn [Nat.eqb]. unfold err. rewrite T1. split; [lra|]. assert (XX := index_lt Hs Ha). pose proof rho01 as RHO.
  assert (EX : tq (tab (targ_params y')) s a = (1 - tau') * tq (tab (targ_params y)) s a + tau' * tq (tab (q_params y)) s a). { rewrite T2. unfold LearnProofs.tq. rewrite (@nth_map_any _ _ _ (seq 0 (length (tab (targ_params y)))) _ 0 0%nat) by (rewrite seq_length; lia). rewrite seq_nth by lia. reflexivity. }
  assert (E1 : Rabs (g (tq (tab (q_params y)) s a) - q s a) <= D0) by (apply (EQ 0%nat); repeat split; auto). assert (E2 : Rabs (g (tq (tab (targ_params y)) s a) - q s a) <= D0) by (apply (ET 0%nat); repeat split; auto).
  set (E' := Rabs (g (tq (tab (q_params y)) s a) - q s a)) in *. assert (P0 : 0 <= E') by apply Rabs_pos. assert (AR : f (q s a - E') <= tq (tab (q_params y)) s a <= f (q s a + E')) by (apply (around IV INC); unfold E'; lra).
  destruct (@mix_err f g IV INC (q s a) D0 m Mf tau' (tq (tab (targ_params y)) s a) (tq (tab (targ_params y')) s a) _ E' HM (fun x y => @SL s a x y Hs Ha) OK ltac:(lra) eq_refl E2) as (c' & K1 & K2 & K3).
  { rewrite EX. split; apply Rplus_le_compat_l, Rmult_le_compat_l; lra. }
  exists c'. split; [lra|]. exact K3.
Qed.
Lemma yrun_runk_t : forall os y, yrun y os = runk ystep y os.
Proof. induction os as [|o os IH]; intros y; [reflexivity|]. cbn [LearnModel.yrun runk]. destruct (ystep y o) as [y1 [u|e]]; auto. Qed.
Lemma one_roundk_t : forall tau0 y os, one_round nS nA dyn gamma lr wl tau0 B y os -> roundk 1 nS nA (fun o (_ : nat) => visits nA o) sync1 op_ok has_targ (m / Mf * tau0) y os.
Proof.
  intros tau0 y os [OK RD]. split; auto. unfold has_targ. destruct (y_targ y).
  - destruct RD as (os1 & tau & os2 & -> & C & T0). exists os1, (YSync tau :: os2). split; auto. split; [intros i s a (_ & Hs & Ha); now apply C|]. intros i Hi. exists (YSync tau), (m / Mf * tau). split; [now left|]. split; [cbn; do 2 f_equal; lia|]. apply Rmult_le_compat_l; [pose proof rho01; lra|auto].
  - destruct RD as [C U]. split; [intros i s a (_ & Hs & Ha); now apply C|]. intros o Io. destruct (U o Io) as (b & ->). reflexivity.
Qed.
Notation cw p D := (called_within nS nA g net p q D).
Lemma called_err : forall p D, cw p D <-> is_tab nS nA p /\ lek 1 nS nA (err p) D.
Proof.
  intros p D. split.
  - intros (th & -> & L & H). split; [split; auto|]. intros i s a (_ & Hs & Ha). destruct (H s a Hs Ha) as (x & X1 & X2). rewrite (tab_call_t g T) in X1 by auto. injection X1 as <-. exact X2.
  - intros ([E L] & H). exists (tab p). split; [exact E|]. split; auto. intros s a Hs Ha. exists (g (tq (tab p) s a)). split; [now apply (tab_call_t g T)|]. apply (H 0%nat). repeat split; auto.
Qed.
Lemma good_t : forall y D, goodk 1 nS nA (fun y => err (q_params y)) (fun y => err (targ_params y)) ok y D <-> sgd_learner lr sub y /\ cw (q_params y) D /\ cw (targ_params y) D.
Proof.
  intros y D. rewrite !called_err. unfold goodk, ok_sys. tauto.
Qed.
Lemma hsync_t : forall o j tau, op_ok o -> sync1 o = Some (j, tau) -> 0 <= tau <= 1.
Proof. pose proof rho01 as RHO. intros [b|t] j tau O1 E; [discriminate|]. injection E as _ <-. cbn in O1. split; [apply Rmult_le_pos; lra|]. nra. Qed.
Lemma rounds_t : forall tau0 rs y D, 0 < tau0 <= 1 -> 0 <= D <= D0 -> sgd_learner lr sub y -> cw (q_params y) D -> cw (targ_params y) D -> (forall r, In r rs -> one_round nS nA dyn gamma lr wl tau0 B y r) ->
  let D' := (1 - m / Mf * tau0 * (m / Mf * beta cl lr wl B * (1 - gamma))) ^ length rs * D in
  exists y', yrun y (concat rs) = (y', Ok tt) /\ sgd_learner lr sub y' /\ cw (q_params y') D' /\ cw (targ_params y') D'.
Proof.
  intros tau0 rs y D Ht HD SG I1 I2 RS D'. pose proof rho01 as RHO.
  assert (HV : forall o v, sync1 o = Some v -> forall i s a : nat, ~ visits nA o s a) by (intros [b|t] v E i s a V; [discriminate|exact V]).
  assert (HN : forall y, ok y -> has_targ y = false -> forall i s a, inb 1 nS nA i s a -> err (targ_params y) i s a <= err (q_params y) i s a). { intros z _ Hz i s a _. unfold targ_params. unfold has_targ in Hz. destruct (y_targ z); [discriminate|]. lra. }
  assert (Hb' : 0 <= m / Mf * beta cl lr wl B <= 1) by (split; [apply Rmult_le_pos; lra|nra]). assert (Ht' : 0 < m / Mf * tau0 <= 1) by (split; [apply Rmult_lt_0_compat; lra|nra]).
  destruct (@roundsk_good 1 nS nA sys yop ystep (fun y => err (q_params y)) (fun y => err (targ_params y)) (fun o (_ : nat) => visits nA o) sync1 op_ok ok has_targ gamma (m / Mf * beta cl lr wl B) D0 Hg Hb' hsync_t upd_t snc_t HV HN (m / Mf * tau0) Ht' rs y D HD) as (y' & R & G & N).
  - apply good_t. auto.
  - intros r Ir. apply one_roundk_t. now apply RS.
  - apply good_t in G. exists y'. rewrite yrun_runk_t. split; auto.
Qed.
End Run.
