From Coq Require Import List Lia Bool Arith Reals Lra.
From Verif Require Import PyCommon CommonProofs UtilsModel UtilsSpec UtilsProofs2 UtilsProofs3 WrappersProofs DistModel DistSpec DistProofs DistProofs2 DistProofs3 LossModel LossSpec LossProofs QModel QProofs QProps TDModel TDSpec TDProofs TDProofs2 TDProofs3 TDProofs4 CoreModel CoreSpec CoreProofs LearnModel LearnSpec LearnProofs LearnProofs2 LearnProofs3 LearnProofs4 LearnProofs5 LearnProofs6 LearnProofs7 NoiseSpec NoiseProofs NoiseProofs2 NoiseProofs3 DblModel DblSpec DblProofs DblProofs2 DblProofs3.
Import ListNotations.
Set Implicit Arguments.
Local Open Scope R_scope.

(** * Bounds of the targets *)
Section Bounds.
Variables nS nA : nat.
Hypothesis HA : (1 <= nA)%nat.
Variable dyn : nat -> nat -> nat * R * bool.
Hypothesis CL : closed nS nA dyn.
Variable gamma : R.
Hypothesis Hg : 0 <= gamma <= 1.
Notation tq := (tq nA).
Lemma interval_BB : forall lo hi D0, floor nS nA dyn gamma lo -> ceiling nS nA dyn gamma hi -> forall (tabs : list R -> Prop) D s a x, 0 <= D <= D0 -> (false = true -> forall t t', tabs t -> tabs t' -> t = t') -> (forall t, tabs t -> tab_le nS nA lo hi 1 t D) -> (s < nS)%nat -> (a < nA)%nat -> ends dyn s a = false ->
  loose nA tabs (next dyn s a) x -> lo s a - gamma * D <= reward dyn s a + gamma * x <= hi s a + 1 * (gamma * D).
Proof.
  intros lo hi D0 FL CE tabs D s a x HD _ HT Hs Ha En (h & h' & h'' & c & d & T1 & T2 & T3 & [Hc _] & E1 & Hd & E2). assert (Hn := CL Hs Ha).
  destruct (HT h' T2) as [_ A1]. specialize (A1 _ _ Hn Hc). apply ers_le in A1; [|lra]. destruct (HT h'' T3) as [_ A2]. specialize (A2 _ _ Hn Hd). apply ers_le in A2; [|lra].
  specialize (FL s a c Hs Ha Hc). specialize (CE s a d Hs Ha Hd). rewrite En in FL, CE.
  assert (gamma * (lo (next dyn s a) c - D) <= gamma * x) by (apply Rmult_le_compat_l; lra). assert (gamma * x <= gamma * (hi (next dyn s a) d + 1 * D)) by (apply Rmult_le_compat_l; lra). lra.
Qed.
Lemma interval_TE : forall lo hi, floor nS nA dyn gamma lo -> ceiling nS nA dyn gamma hi -> forall s a, (s < nS)%nat -> (a < nA)%nat -> ends dyn s a = true -> lo s a <= reward dyn s a <= hi s a.
Proof. intros lo hi FL CE s a Hs Ha En. specialize (FL s a 0%nat Hs Ha ltac:(lia)). specialize (CE s a 0%nat Hs Ha ltac:(lia)). rewrite En in FL, CE. lra. Qed.
Variable q : nat -> nat -> R.
Hypothesis BE : bellman nS nA dyn gamma (by_max nA) q.
Lemma eta_BB : forall eta D0, 0 < eta -> forall (tabs : list R -> Prop) D s a x, 0 <= D <= D0 -> (false = true -> forall t t', tabs t -> tabs t' -> t = t') -> (forall t, tabs t -> tab_le nS nA q q eta t D) -> (s < nS)%nat -> (a < nA)%nat -> ends dyn s a = false ->
  loose nA tabs (next dyn s a) x -> q s a - gamma * (2 + eta) * D <= reward dyn s a + gamma * x <= q s a + eta * (gamma * (2 + eta) * D).
Proof.
  intros eta D0 He tabs D s a x HD _ HT Hs Ha En (h & h' & h'' & c & d & T1 & T2 & T3 & [Hc Bc] & E1 & Hd & E2). assert (Hn := CL Hs Ha).
  destruct (BE Hs Ha) as (m & [(c0 & Hc0 & Ec0) Bm] & ->). rewrite En.
  assert (A : forall t e, tabs t -> (e < nA)%nat -> q (next dyn s a) e - D <= tq t (next dyn s a) e <= q (next dyn s a) e + eta * D). { intros t e Ht Hee. destruct (HT t Ht) as [_ A1]. specialize (A1 _ _ Hn Hee). apply ers_le in A1; tauto. }
  pose proof (A h c0 T1 Hc0). pose proof (A h c T1 Hc). pose proof (A h' c T2 Hc). pose proof (A h'' d T3 Hd). pose proof (Bm d Hd). specialize (Bc c0 Hc0).
  assert (X1 : m - (2 + eta) * D <= x) by lra. assert (X2 : x <= m + eta * D) by lra. assert (gamma * (m - (2 + eta) * D) <= gamma * x) by (apply Rmult_le_compat_l; lra). assert (gamma * x <= gamma * (m + eta * D)) by (apply Rmult_le_compat_l; lra).
  assert (0 <= gamma * (eta * D)) by (repeat apply Rmult_le_pos; lra). assert (0 <= eta * (gamma * (eta * D))) by (repeat apply Rmult_le_pos; lra). split; lra.
Qed.
Lemma alone_BB : forall D0 (tabs : list R -> Prop) D s a x, 0 <= D <= D0 -> (true = true -> forall t t', tabs t -> tabs t' -> t = t') -> (forall t, tabs t -> tab_le nS nA q q 1 t D) -> (s < nS)%nat -> (a < nA)%nat -> ends dyn s a = false ->
  loose nA tabs (next dyn s a) x -> q s a - gamma * D <= reward dyn s a + gamma * x <= q s a + 1 * (gamma * D).
Proof.
  intros D0 tabs D s a x HD ONE HT Hs Ha En (h & h' & h'' & c & d & T1 & T2 & T3 & [Hc Bc] & E1 & Hd & E2). assert (Hn := CL Hs Ha). rewrite (ONE eq_refl h' h T2 T1) in E1. rewrite (ONE eq_refl h'' h T3 T1) in E2.
  destruct (BE Hs Ha) as (m & [(c0 & Hc0 & Ec0) Bm] & ->). rewrite En.
  assert (A : forall e, (e < nA)%nat -> q (next dyn s a) e - D <= tq h (next dyn s a) e <= q (next dyn s a) e + 1 * D). { intros e Hee. destruct (HT h T1) as [_ A1]. specialize (A1 _ _ Hn Hee). apply ers_le in A1; [tauto|lra]. }
  pose proof (A c0 Hc0). pose proof (A d Hd). pose proof (Bm d Hd). specialize (Bc c0 Hc0).
  assert (gamma * (m - D) <= gamma * x) by (apply Rmult_le_compat_l; lra). assert (gamma * x <= gamma * (m + D)) by (apply Rmult_le_compat_l; lra). lra.
Qed.
Lemma bellman_TE : forall s a, (s < nS)%nat -> (a < nA)%nat -> ends dyn s a = true -> q s a <= reward dyn s a <= q s a.
Proof. intros s a Hs Ha En. destruct (BE Hs Ha) as (m & _ & ->). rewrite En. lra. Qed.
Lemma bellman_ceiling : ceiling nS nA dyn gamma q.
Proof. intros s a c Hs Ha Hc. destruct (BE Hs Ha) as (m & [_ Bm] & ->). destruct (ends dyn s a); [lra|]. specialize (Bm c Hc). assert (gamma * q (next dyn s a) c <= gamma * m) by (apply Rmult_le_compat_l; lra). lra. Qed.
End Bounds.

Lemma scene_parts : forall nS nA dyn gamma net loss lr wl cl M B, scene nS nA dyn gamma net loss lr wl cl M B -> (1 <= nA)%nat /\ closed nS nA dyn /\ 0 <= gamma <= 1 /\ tabular nS nA net /\ pulls loss M cl /\ 0 < lr /\ 0 < wl /\ 0 <= beta cl lr wl B <= 1.
Proof.
  intros nS nA dyn gamma net loss lr wl cl M B (HA & CL & Hg & NET & PL & Hlr & Hwl & HW & HB). repeat (split; [assumption|]). split; [destruct NET as [-> | ->]; [apply table1_tabular|apply table2_tabular]|]. split; auto. split; auto. split; auto.
  destruct (pulls_slope PL) as (Hcl & _). unfold beta. assert (PB : 1 <= INR B) by (apply (le_INR 1); lia). assert (0 < / INR B <= 1) by (split; [apply Rinv_0_lt_compat; lra|rewrite <- Rinv_1; apply Rinv_le_contravar; lra]).
  assert (0 <= lr * wl * cl <= 1) by (assert (0 < lr * wl) by (apply Rmult_lt_0_compat; lra); split; [apply Rmult_le_pos; lra|nra]). unfold Rdiv. split; [apply Rmult_le_pos; lra|nra].
Qed.

(** * Gradients by a formula *)
Lemma analytic_gradient : forall nS nA net l l' dyn gamma target th targ rows b G, (1 <= nA)%nat -> tabular nS nA net -> (forall y h, derivable_pt_lim (l y) h (l' y h)) -> length th = (nS * nA)%nat -> genuine nS nA dyn gamma rows b -> target th targ (fb_t b) = Ok G -> length G = length rows ->
  gradient (fun p => loss_value (q_loss (Some nA) net target (zip_loss l) th targ b p)) th (analytic nS nA l' target th targ b).
Proof.
  intros nS nA net l l' dyn gamma target th targ rows b G HA T Dl L GEN TG LG. pose proof (genuine_rows HA GEN) as HR. pose proof (decode_rows HA GEN) as DR. destruct GEN as (NE & HS & HAc & HW & _).
  unfold analytic. rewrite DR, TG. apply (@table_gradient nS nA HA net T l l' Dl target rows b th targ G th HS HAc HW LG NE HR TG L).
Qed.
Lemma analytic_double : forall nS nA net l l' dyn gamma, (1 <= nA)%nat -> tabular nS nA net -> (forall y h, derivable_pt_lim (l y) h (l' y h)) -> differentiates nS nA dyn gamma net (target_double nA net) (zip_loss l) (analytic nS nA l' (target_double nA net)).
Proof.
  intros nS nA net l l' dyn gamma HA T Dl th targ rows b L Lt GEN. destruct (genuine_states HA GEN) as [W S]. destruct (@double_boot nS nA HA net T th targ (fb_t b) L Lt W S) as (G & TG & BG). destruct (genuine_boot HA GEN BG) as [LG _]. eapply analytic_gradient; eauto.
Qed.
Definition analytic_shared (nS nA : nat) (l' : R -> R -> R) (net : list R -> qfun nat R) (th : list R) (targs : list (list R)) (b : fbatch nat) : list R := analytic nS nA l' (fun _ _ => target_clipped nA net targs) th [] b.
Lemma analytic_clipped : forall nS nA K net l l' dyn gamma, (1 <= nA)%nat -> (2 <= K)%nat -> tabular nS nA net -> (forall y h, derivable_pt_lim (l y) h (l' y h)) -> shared_differentiates nS nA dyn gamma K net (zip_loss l) (analytic_shared nS nA l' net).
Proof.
  intros nS nA K net l l' dyn gamma HA HK T Dl th targs rows b L LK LT GEN. destruct (genuine_states HA GEN) as [W S]. destruct (@clipped_boot nS nA HA net T targs (fb_t b) ltac:(lia) LT W S) as (G & TG & BG). destruct (genuine_boot HA GEN BG) as [LG _]. unfold analytic_shared. eapply analytic_gradient; eauto.
Qed.
