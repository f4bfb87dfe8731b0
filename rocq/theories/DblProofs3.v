From Coq Require Import List Lia Bool Arith Reals Lra.
From Verif Require Import PyCommon CommonProofs UtilsModel UtilsSpec UtilsProofs2 UtilsProofs3 WrappersProofs DistModel DistSpec DistProofs DistProofs2 DistProofs3 LossModel LossSpec LossProofs QModel QProofs QProps TDModel TDSpec TDProofs TDProofs2 TDProofs3 TDProofs4 CoreModel CoreSpec CoreProofs LearnModel LearnSpec LearnProofs LearnProofs2 LearnProofs3 LearnProofs4 LearnProofs5 LearnProofs6 LearnProofs7 NoiseSpec NoiseProofs NoiseProofs2 NoiseProofs3 DblModel DblSpec DblProofs DblProofs2.
Import ListNotations.
Set Implicit Arguments.
Local Open Scope R_scope.

Lemma put_length : forall (A : Type) i (x : A) l, (i < length l)%nat -> length (put i x l) = length l.
Proof. intros A i x l H. unfold put. rewrite app_length, firstn_length. cbn [length]. rewrite skipn_length. lia. Qed.
Lemma put_nth : forall (A : Type) i (x : A) l j, (i < length l)%nat -> nth_error (put i x l) j = if Nat.eqb j i then Some x else nth_error l j.
Proof.
  intros A i x l. revert i. induction l as [|y l IH]; intros i j H; cbn in H; [lia|]. destruct i as [|i]; destruct j as [|j]; try reflexivity. unfold put. cbn [firstn skipn app nth_error Nat.eqb]. apply (IH i j). lia.
Qed.
Lemma put_in : forall (A : Type) i (x : A) l y, (i < length l)%nat -> In y (put i x l) -> y = x \/ In y l.
Proof. intros A i x l y H I. apply In_nth_error in I. destruct I as [j E]. rewrite put_nth in E by auto. destruct (Nat.eqb j i); [injection E as <-; auto|right; eapply nth_error_In; eauto]. Qed.

Section Gen.
Variables nS nA : nat.
Hypothesis HA : (1 <= nA)%nat.
Variable net : list R -> qfun nat R.
Hypothesis T : tabular nS nA net.
Variable dyn : nat -> nat -> nat * R * bool.
Hypothesis CL : closed nS nA dyn.
Variable gamma : R.
Variables (loss : list R -> list R -> option (list R) -> outcome (option R)) (sub : nat -> nat -> bool).
Variables (M cl lr wl : R) (B : nat).
Hypothesis PL : pulls loss M cl.
Hypothesis Hlr : 0 < lr.
Hypothesis Hwl : 0 < wl.
Hypothesis Hbeta : 0 <= beta cl lr wl B <= 1.
Variables lo hi : nat -> nat -> R.
Variables eta g D0 : R.
Hypothesis Heta : 0 < eta.
Hypothesis Hg : 0 <= g <= 1.
Hypothesis HM : forall s a, (s < nS)%nat -> (a < nA)%nat -> hi s a - lo s a + (1 + eta) * D0 <= M.
Hypothesis HLH : forall s a, (s < nS)%nat -> (a < nA)%nat -> lo s a <= hi s a.
Notation tq := (tq nA).
Definition ers (s a : nat) (x : R) : R := Rmax 0 (Rmax ((x - hi s a) / eta) (lo s a - x)).
Lemma ers_le : forall s a x e, ers s a x <= e <-> 0 <= e /\ lo s a - e <= x <= hi s a + eta * e.
Proof.
  intros s a x e. unfold ers. assert (Z : (x - hi s a) / eta <= e <-> x <= hi s a + eta * e).
  { assert (E : (x - hi s a) / eta * eta = x - hi s a) by (field; lra). split; intros H.
    - apply (Rmult_le_compat_r eta) in H; lra.
    - apply (Rmult_le_reg_r eta); auto. lra. }
  split.
  - intros H. pose proof (Rmax_l 0 (Rmax ((x - hi s a) / eta) (lo s a - x))). pose proof (Rmax_r 0 (Rmax ((x - hi s a) / eta) (lo s a - x))). pose proof (Rmax_l ((x - hi s a) / eta) (lo s a - x)). pose proof (Rmax_r ((x - hi s a) / eta) (lo s a - x)).
    assert (x <= hi s a + eta * e) by (apply Z; lra). lra.
  - intros (H0 & H1 & H2). apply Rmax_lub; [lra|]. apply Rmax_lub; [now apply Z|lra].
Qed.
Lemma ers_mix : forall s a c x x' l h D, 0 <= c <= 1 -> 0 <= D -> lo s a - D <= l -> h <= hi s a + eta * D -> (1 - c) * x + c * l <= x' <= (1 - c) * x + c * h -> ers s a x' <= (1 - c) * ers s a x + c * D.
Proof.
  intros s a c x x' l h D Hc HD Hl Hh [H1 H2]. assert (E : ers s a x <= ers s a x) by lra. apply ers_le in E. destruct E as (E0 & E1 & E2). set (e := ers s a x) in *. apply ers_le.
  assert (0 <= (1 - c) * e) by (apply Rmult_le_pos; lra). assert (0 <= c * D) by (apply Rmult_le_pos; lra). split; [lra|].
  assert ((1 - c) * (lo s a - e) <= (1 - c) * x) by (apply Rmult_le_compat_l; lra). assert ((1 - c) * x <= (1 - c) * (hi s a + eta * e)) by (apply Rmult_le_compat_l; lra). assert (c * (lo s a - D) <= c * l) by (apply Rmult_le_compat_l; lra). assert (c * h <= c * (hi s a + eta * D)) by (apply Rmult_le_compat_l; lra). lra.
Qed.
Definition tab_le (t : list R) (D : R) : Prop := length t = (nS * nA)%nat /\ forall s a, (s < nS)%nat -> (a < nA)%nat -> ers s a (tq t s a) <= D.
Variable nt : bool.
Hypothesis BB : forall (tabs : list R -> Prop) D s a x, 0 <= D <= D0 -> (nt = true -> forall t t', tabs t -> tabs t' -> t = t') -> (forall t, tabs t -> tab_le t D) -> (s < nS)%nat -> (a < nA)%nat -> ends dyn s a = false ->
  loose nA tabs (next dyn s a) x -> lo s a - g * D <= reward dyn s a + gamma * x <= hi s a + eta * (g * D).
Hypothesis TE : forall s a, (s < nS)%nat -> (a < nA)%nat -> ends dyn s a = true -> lo s a <= reward dyn s a <= hi s a.
Lemma row_bounds : forall rows b boot G (tabs : list R -> Prop) th D, 0 <= D <= D0 -> genuine nS nA dyn gamma rows b -> bootstrapped (fun x => x) (fun x => x) (fb_t b) boot G -> (nt = true -> forall t t', tabs t -> tabs t' -> t = t') ->
  (forall t, tabs t -> tab_le t D) -> (forall i s' x, (s' < nS)%nat -> boot i s' x -> loose nA tabs s' x) -> tab_le th D -> length G = length rows /\
  forall i s a, nth_error rows i = Some (s, a) -> lo s a - g * D <= nth i G 0 <= hi s a + eta * (g * D) /\ Rabs (nth i G 0 - tq th s a) <= M.
Proof.
  intros rows b boot G tabs th D HD GEN BG NT HT HL [_ HE]. destruct (genuine_boot HA GEN BG) as [LG RW]. split; auto. intros i s a Hi. destruct (RW i s a Hi) as (Hs & Ha & s' & x & Hs' & Bx & -> & EN).
  assert (GD : 0 <= g * D <= D) by (split; [apply Rmult_le_pos; lra|nra]). assert (0 <= eta * (g * D) <= eta * D) by (split; [apply Rmult_le_pos; lra|apply Rmult_le_compat_l; lra]).
  assert (X : lo s a - g * D <= reward dyn s a + (if ends dyn s a then 0 else gamma * x) <= hi s a + eta * (g * D)).
  { destruct (ends dyn s a) eqn:En; [pose proof (TE Hs Ha En); lra|]. apply (@BB tabs D s a x HD NT HT Hs Ha En). rewrite <- EN by auto. now apply HL with i. }
  split; auto. specialize (HE s a Hs Ha). apply ers_le in HE. specialize (HM Hs Ha). assert ((1 + eta) * D <= (1 + eta) * D0) by (apply Rmult_le_compat_l; lra). apply Rabs_le. lra.
Qed.
Notation inside_by p D := (inside nS nA net p (fun s a => lo s a - D) (fun s a => hi s a + eta * D)).
Lemma inside_tab : forall p D, 0 <= D -> (inside_by p D <-> is_tab nS nA p /\ tab_le (tab p) D).
Proof.
  intros p D HD. split.
  - intros (th & -> & L & H). split; [split; auto|]. split; auto. intros s a Hs Ha. destruct (H s a Hs Ha) as (x & E & Bx). rewrite (tab_call T) in E by auto. injection E as <-. apply ers_le. auto.
  - intros ([E L] & _ & H). exists (tab p). split; [exact E|]. split; auto. intros s a Hs Ha. exists (tq (tab p) s a). rewrite (tab_call T) by auto. split; auto. specialize (H s a Hs Ha). apply ers_le in H. tauto.
Qed.

(** * One learner *)
Section One.
Variable grads : list R -> list R -> fbatch nat -> list R.
Hypothesis GR : differentiates nS nA dyn gamma net (target_double nA net) loss grads.
Notation ystep := (ystep nA net (target_double nA net) loss grads sub).
Notation yrun := (yrun nA net (target_double nA net) loss grads sub).
Notation op_ok := (op_ok nS nA dyn gamma lr wl B).
Definition eQ1 (y : sys) (i s a : nat) : R := ers s a (tq (tab (q_params y)) s a).
Definition eT1 (y : sys) (i s a : nat) : R := ers s a (tq (tab (targ_params y)) s a).
Definition ok1 (y : sys) : Prop := ok_sys nS nA sub lr y /\ (nt = true -> y_targ y = None).
Definition sync1 (o : yop) : option (nat * R) := match o with YUpdate _ => None | YSync tau => Some (0%nat, tau) end.
Lemma upd1 : forall y o D, 0 <= D <= D0 -> ok1 y -> lek 1 nS nA (eQ1 y) D -> lek 1 nS nA (eT1 y) D -> op_ok o -> sync1 o = None ->
  exists y', ystep y o = (y', Ok tt) /\ ok1 y' /\ has_targ y' = has_targ y /\
  (forall i s a, inb 1 nS nA i s a -> exists c, 0 <= c <= 1 /\ (visits nA o s a -> beta cl lr wl B <= c) /\ eQ1 y' i s a <= (1 - c) * eQ1 y i s a + c * (g * D)) /\
  (forall i s a, inb 1 nS nA i s a -> eT1 y' i s a <= if has_targ y then eT1 y i s a else eQ1 y' i s a).
Proof.
  intros y o D HD ((SG & [Q L] & [P Lt]) & NT) EQ ET OK NS. destruct o as [b|tau]; [|discriminate]. destruct OK as (rows & GEN & WF & LB). destruct (genuine_states HA GEN) as [WFb HSb]. 
  destruct (@double_boot nS nA HA net T (tab (q_params y)) (tab (targ_params y)) (fb_t b) L Lt WFb HSb) as (G & TG & BG).
  assert (TQ : tab_le (tab (q_params y)) D) by (split; auto; intros s a Hs Ha; apply (EQ 0%nat); repeat split; auto). assert (TT : tab_le (tab (targ_params y)) D) by (split; auto; intros s a Hs Ha; apply (ET 0%nat); repeat split; auto).
  destruct (@row_bounds rows b _ G (fun t => t = tab (q_params y) \/ t = tab (targ_params y)) (tab (q_params y)) D HD GEN BG) as [LG RB]; auto.
  { intros N t t' Ht Ht'. assert (E : targ_params y = q_params y) by (unfold targ_params; now rewrite (NT N)). rewrite E in *. intuition congruence. }
  { intros t [->| ->]; auto. }
  { intros i s' x Hs' X. now apply double_loose. }
  destruct (@mix_update nS nA HA net T dyn gamma (target_double nA net) loss grads sub M cl lr wl B PL Hlr Hwl y _ _ rows b G (fun s a => lo s a - g * D) (fun s a => hi s a + eta * (g * D)) SG Q L P GEN WF LB) as (y' & th' & Y1 & Y2 & Y3 & Y4 & Y5 & C); auto.
  { now apply GR with rows. }
  exists y'. split; auto. assert (TY : tab (q_params y') = th') by (rewrite Y4; reflexivity).
  assert (TP : targ_params y' = if has_targ y then targ_params y else q_params y'). { unfold targ_params, has_targ. rewrite Y3. destruct (y_targ y); reflexivity. }
  split; [split; [split; auto; split; [split; [now rewrite TY|congruence]|rewrite TP; destruct (has_targ y); split; auto; [now rewrite TY|congruence]]|intros N; rewrite Y3; auto]|]. split; [unfold has_targ; now rewrite Y3|]. split; [|intros; unfold eT1, eQ1; rewrite TP; destruct (has_targ y); lra].
  intros i s a (_ & Hs & Ha). destruct (C s a Hs Ha) as (c & C1 & C2 & C3). exists c. split; auto. split; auto. unfold eQ1. rewrite TY. assert (0 <= g * D) by (apply Rmult_le_pos; lra). eapply ers_mix; [exact C1|auto|..|exact C3]; lra.
Qed.
Lemma ers_between : forall s a tau x y, 0 <= tau <= 1 -> ers s a ((1 - tau) * x + tau * y) <= (1 - tau) * ers s a x + tau * ers s a y.
Proof.
  intros s a tau x y Ht. assert (E : ers s a y <= ers s a y) by lra. apply ers_le in E. eapply ers_mix; [exact Ht|tauto|..|split; apply Rle_refl]; lra.
Qed.
Lemma sys_sync : forall target grads' y tau, ok_sys nS nA sub lr y -> 0 <= tau <= 1 -> has_targ y = true ->
  exists y', LearnModel.ystep nA net target loss grads' sub y (YSync tau) = (y', Ok tt) /\ ok_sys nS nA sub lr y' /\ has_targ y' = true /\ q_params y' = q_params y /\
  forall s a, (s < nS)%nat -> (a < nA)%nat -> ers s a (tq (tab (targ_params y')) s a) <= (1 - tau) * ers s a (tq (tab (targ_params y)) s a) + tau * ers s a (tq (tab (q_params y)) s a).
Proof.
  intros target grads' y tau (SG & [Q L] & [P Lt]) Hta Ht. unfold has_targ in Ht. destruct (y_targ y) as [t|] eqn:E; [|discriminate].
  destruct (@ystep_sync nA net target loss grads' sub lr y tau _ _ t SG E Q P) as (y' & t' & Y1 & Y2 & Y3 & Y4 & Y5); [lia|]. exists y'. split; auto.
  assert (T1 : tab (q_params y') = tab (q_params y)) by (rewrite Y4; reflexivity). assert (T2 := f_equal tab Y5). unfold tab in T2 at 2. cbn [unwrap wrap] in T2.
  split; [split; auto; split; split; [now rewrite T1|congruence|rewrite T2; exact Y5|rewrite T2, map_length, seq_length; exact Lt]|]. split; [unfold has_targ; now rewrite Y3|]. split; [congruence|].
  intros s a Hs Ha. assert (XX := index_lt Hs Ha). rewrite T2. unfold LearnProofs.tq. rewrite (@nth_map_any _ _ _ (seq 0 (length (tab (targ_params y)))) _ 0 0%nat) by (rewrite seq_length; lia). rewrite seq_nth by lia. cbn [Nat.add]. now apply ers_between.
Qed.
Lemma snc1 : forall y o j tau, ok1 y -> lek 1 nS nA (eQ1 y) D0 -> lek 1 nS nA (eT1 y) D0 -> op_ok o -> sync1 o = Some (j, tau) -> has_targ y = true ->
  exists y', ystep y o = (y', Ok tt) /\ ok1 y' /\ has_targ y' = true /\
  forall i s a, inb 1 nS nA i s a -> eQ1 y' i s a <= eQ1 y i s a /\ if Nat.eqb i j then exists c, tau <= c <= 1 /\ eT1 y' i s a <= (1 - c) * eT1 y i s a + c * eQ1 y i s a else eT1 y' i s a <= eT1 y i s a.
Proof.
  intros y o j tau [OKS NT] _ _ OK Y Ht. destruct o as [b|tau']; [discriminate|]. injection Y as <- ->. cbn in OK. assert (N : nt = false). { destruct nt eqn:E; auto. unfold has_targ in Ht. rewrite NT in Ht by auto. discriminate. }
  destruct (@sys_sync (target_double nA net) grads y tau OKS OK Ht) as (y' & Y1 & Y2 & Y3 & Y4 & Y5). exists y'. split; auto. split; [split; auto; rewrite N; discriminate|]. split; auto. intros i s a (Hi & Hs & Ha). replace i with 0%nat by lia. cbn [Nat.eqb]. unfold eQ1, eT1. rewrite Y4. split; [lra|]. exists tau. split; [lra|]. now apply Y5.
Qed.
Lemma yrun_runk : forall os y, yrun y os = runk ystep y os.
Proof. induction os as [|o os IH]; intros y; [reflexivity|]. cbn [LearnModel.yrun runk]. destruct (ystep y o) as [y1 [u|e]]; auto. Qed.
Lemma one_roundk : forall tau0 y os, one_round nS nA dyn gamma lr wl tau0 B y os -> roundk 1 nS nA (fun o (_ : nat) => visits nA o) sync1 op_ok has_targ tau0 y os.
Proof.
  intros tau0 y os [OK RD]. split; auto. unfold has_targ. destruct (y_targ y).
  - destruct RD as (os1 & tau & os2 & -> & C & T0). exists os1, (YSync tau :: os2). split; auto. split; [intros i s a (_ & Hs & Ha); now apply C|]. intros i Hi. exists (YSync tau), tau. split; [now left|]. split; auto. cbn. do 2 f_equal. lia.
  - destruct RD as [C U]. split; [intros i s a (_ & Hs & Ha); now apply C|]. intros o Io. destruct (U o Io) as (b & ->). reflexivity.
Qed.
Lemma good1 : forall y D, 0 <= D -> (goodk 1 nS nA eQ1 eT1 ok1 y D <-> sgd_learner lr sub y /\ (nt = true -> y_targ y = None) /\ inside_by (q_params y) D /\ inside_by (targ_params y) D).
Proof.
  intros y D HD. rewrite !inside_tab by auto. split.
  - intros (((SG & T1 & T2) & NT) & EQ & ET). repeat (split; auto); try apply T1; try apply T2; intros s a Hs Ha; [apply (EQ 0%nat)|apply (ET 0%nat)]; repeat split; auto.
  - intros (SG & NT & (T1 & _ & E1) & (T2 & _ & E2)). split; [split; auto; split; auto|]. split; intros i s a (_ & Hs & Ha); [now apply E1|now apply E2].
Qed.
Lemma one_rounds : forall tau0 rs y D, 0 < tau0 <= 1 -> 0 <= D <= D0 -> sgd_learner lr sub y -> (nt = true -> y_targ y = None) -> inside_by (q_params y) D -> inside_by (targ_params y) D -> (forall r, In r rs -> one_round nS nA dyn gamma lr wl tau0 B y r) ->
  exists y', yrun y (concat rs) = (y', Ok tt) /\ sgd_learner lr sub y' /\ inside_by (q_params y') ((1 - tau0 * (beta cl lr wl B * (1 - g))) ^ length rs * D) /\ inside_by (targ_params y') ((1 - tau0 * (beta cl lr wl B * (1 - g))) ^ length rs * D).
Proof.
  intros tau0 rs y D Ht HD SG NT I1 I2 RS.
  assert (HS : forall o j tau, op_ok o -> sync1 o = Some (j, tau) -> 0 <= tau <= 1) by (intros [b|t] j tau O1 E; [discriminate|]; injection E as _ ->; exact O1).
  assert (HV : forall o v, sync1 o = Some v -> forall i s a : nat, ~ visits nA o s a) by (intros [b|t] v E i s a V; [discriminate|exact V]).
  assert (HN : forall y, ok1 y -> has_targ y = false -> forall i s a, inb 1 nS nA i s a -> eT1 y i s a <= eQ1 y i s a). { intros z _ Hz i s a _. unfold eT1, eQ1, targ_params. unfold has_targ in Hz. destruct (y_targ z); [discriminate|]. lra. }
  destruct (@roundsk_good 1 nS nA sys yop ystep eQ1 eT1 (fun o (_ : nat) => visits nA o) sync1 op_ok ok1 has_targ g (beta cl lr wl B) D0 Hg Hbeta HS upd1 snc1 HV HN tau0 Ht rs y D HD) as (y' & R & G & N).
  - apply good1; [lra|]. auto.
  - intros r Ir. apply one_roundk. now apply RS.
  - assert (K := @ratek01 g (beta cl lr wl B) Hg Hbeta tau0 Ht). apply good1 in G; [|apply Rmult_le_pos; [apply pow_le|]; lra]. destruct G as (G1 & G2 & G3 & G4). exists y'. rewrite yrun_runk. auto.
Qed.
End One.

(** * Several learners *)
Section Many.
Variable K : nat.
Hypothesis HK : (2 <= K)%nat.
Hypothesis NTf : nt = false.
Variable cgrads : list R -> list (list R) -> fbatch nat -> list R.
Hypothesis GR : shared_differentiates nS nA dyn gamma K net loss cgrads.
Notation cstep := (cstep nA net loss cgrads sub).
Notation crun := (crun nA net loss cgrads sub).
Notation cop_ok := (cop_ok nS nA dyn gamma K lr wl B).
Definition at_learner (f : sys -> nat -> nat -> R) (ys : list sys) (i s a : nat) : R := match nth_error ys i with Some y => f y s a | None => 0 end.
Definition eQk := at_learner (fun y s a => ers s a (tq (tab (q_params y)) s a)).
Definition eTk := at_learner (fun y s a => ers s a (tq (tab (targ_params y)) s a)).
Definition okk (ys : list sys) : Prop := length ys = K /\ forall y, In y ys -> ok_sys nS nA sub lr y /\ has_targ y = true.
Definition synk (o : cop) : option (nat * R) := match o with CUpdate _ _ => None | CSync i tau => Some (i, tau) end.
Lemma unwraps_ok : forall ys, (forall y, In y ys -> ok_sys nS nA sub lr y /\ has_targ y = true) -> unwraps (map targ_params ys) = Some (map (fun y => tab (targ_params y)) ys).
Proof.
  induction ys as [|y ys IH]; intros H; [reflexivity|]. cbn [map unwraps]. destruct (H y (or_introl eq_refl)) as ((_ & _ & [E _]) & _). rewrite E at 1. cbn [unwrap wrap]. rewrite IH by (intros; apply H; now right). reflexivity.
Qed.
Lemma updk' : forall ys o D, 0 <= D <= D0 -> okk ys -> lek K nS nA (eQk ys) D -> lek K nS nA (eTk ys) D -> cop_ok o -> synk o = None ->
  exists ys', cstep ys o = (ys', Ok tt) /\ okk ys' /\ true = true /\
  (forall i s a, inb K nS nA i s a -> exists c, 0 <= c <= 1 /\ (cvisits nA o i s a -> beta cl lr wl B <= c) /\ eQk ys' i s a <= (1 - c) * eQk ys i s a + c * (g * D)) /\
  (forall i s a, inb K nS nA i s a -> eTk ys' i s a <= if true then eTk ys i s a else eQk ys' i s a).
Proof.
  intros ys o D HD [LY OKS] EQ ET OK NS. destruct o as [j b|j tau]; [|discriminate]. destruct OK as (Hj & rows & GEN & WF & LB). destruct (genuine_states HA GEN) as [WFb HSb]. assert (Hj' : (j < length ys)%nat) by lia.
  destruct (nth_error ys j) as [y|] eqn:Ej; [|apply nth_error_None in Ej; lia]. assert (Iy : In y ys) by (eapply nth_error_In; eauto). destruct (OKS y Iy) as ((SG & [Q L] & [P Lt]) & Hty). cbn [DblModel.cstep]. rewrite Ej, unwraps_ok by auto. set (targs := map (fun y => tab (targ_params y)) ys).
  assert (TL : forall t, In t targs -> tab_le t D). { intros t It. unfold targs in It. apply in_map_iff in It. destruct It as (z & <- & Iz). destruct (OKS z Iz) as ((_ & _ & [_ Lz]) & _). split; auto. intros s a Hs Ha. destruct (In_nth_error _ _ Iz) as [i Ei]. assert (Hi : (i < K)%nat) by (rewrite <- LY; apply nth_error_Some; congruence). specialize (ET i s a ltac:(repeat split; auto)). unfold eTk, at_learner in ET. now rewrite Ei in ET. }
  assert (TL' : forall t, In t targs -> length t = (nS * nA)%nat) by (intros t It; apply (TL t It)).
  assert (LT : length targs = K) by (unfold targs; now rewrite map_length).
  destruct (@clipped_boot nS nA HA net T targs (fb_t b) ltac:(lia) TL' WFb HSb) as (G & TG & BG).
  assert (TQ : tab_le (tab (q_params y)) D). { split; auto. intros s a Hs Ha. specialize (EQ j s a ltac:(repeat split; auto)). unfold eQk, at_learner in EQ. now rewrite Ej in EQ. }
  destruct (@row_bounds rows b _ G (fun t => In t targs) (tab (q_params y)) D HD GEN BG) as [LG RB]; auto.
  { rewrite NTf. discriminate. }
  { intros i s' x Hs' X. now apply clipped_loose. }
  destruct (@mix_update nS nA HA net T dyn gamma (fun _ _ => target_clipped nA net targs) loss (fun th _ => cgrads th targs) sub M cl lr wl B PL Hlr Hwl y _ _ rows b G (fun s a => lo s a - g * D) (fun s a => hi s a + eta * (g * D)) SG Q L P GEN WF LB) as (y' & th' & Y1 & Y2 & Y3 & Y4 & Y5 & C); auto.
  { exact (@GR _ targs rows b L LT TL' GEN). }
  rewrite Y1. exists (put j y' ys). split; auto. assert (TY : tab (q_params y') = th') by (rewrite Y4; reflexivity).
  assert (TP : targ_params y' = targ_params y). { unfold targ_params. rewrite Y3. unfold has_targ in Hty. destruct (y_targ y); [reflexivity|discriminate]. }
  split; [split; [now rewrite put_length|]|].
  { intros z Iz. apply put_in in Iz; auto. destruct Iz as [->|Iz]; [|auto]. split; [|unfold has_targ; now rewrite Y3]. split; auto. split; split; [now rewrite TY|congruence|now rewrite TP|now rewrite TP]. }
  split; auto. split.
  - intros i s a (Hi & Hs & Ha). unfold eQk, at_learner. rewrite put_nth by auto. destruct (Nat.eqb_spec i j) as [->|N].
    + rewrite Ej. destruct (C s a Hs Ha) as (c & C1 & C2 & C3). exists c. split; auto. split; [intros [_ V]; auto|]. rewrite TY. assert (0 <= g * D) by (apply Rmult_le_pos; lra). eapply ers_mix; [exact C1|auto|..|exact C3]; lra.
    + exists 0. split; [lra|]. split; [intros [E _]; congruence|]. lra.
  - intros i s a (Hi & Hs & Ha). unfold eTk, at_learner. rewrite put_nth by auto. destruct (Nat.eqb_spec i j) as [->|N]; [rewrite Ej, TP|]; lra.
Qed.
Lemma sncks : forall ys o j tau, okk ys -> lek K nS nA (eQk ys) D0 -> lek K nS nA (eTk ys) D0 -> cop_ok o -> synk o = Some (j, tau) -> true = true ->
  exists ys', cstep ys o = (ys', Ok tt) /\ okk ys' /\ true = true /\
  forall i s a, inb K nS nA i s a -> eQk ys' i s a <= eQk ys i s a /\ if Nat.eqb i j then exists c, tau <= c <= 1 /\ eTk ys' i s a <= (1 - c) * eTk ys i s a + c * eQk ys i s a else eTk ys' i s a <= eTk ys i s a.
Proof.
  intros ys o j tau [LY OKS] _ _ OK Y _. destruct o as [i b|i tau']; [discriminate|]. injection Y as -> ->. destruct OK as [Hj Hta]. assert (Hj' : (j < length ys)%nat) by lia. destruct (nth_error ys j) as [y|] eqn:Ej; [|apply nth_error_None in Ej; lia]. assert (Iy : In y ys) by (eapply nth_error_In; eauto). destruct (OKS y Iy) as (Oy & Hty).
  destruct (@sys_sync (fun _ _ => target_clipped nA net []) (fun th _ => cgrads th []) y tau Oy Hta Hty) as (y' & Y1 & Y2 & Y3 & Y4 & Y5). cbn [DblModel.cstep]. rewrite Ej, Y1. exists (put j y' ys). split; auto. split; [split; [now rewrite put_length|]|].
  { intros z Iz. apply put_in in Iz; auto. destruct Iz as [->|Iz]; auto. }
  split; auto. intros i s a (Hi & Hs & Ha). unfold eQk, eTk, at_learner. rewrite put_nth by auto. destruct (Nat.eqb_spec i j) as [->|N]; [|lra]. rewrite Ej, Y4. split; [lra|]. exists tau. split; [lra|]. now apply Y5.
Qed.
Lemma crun_runk : forall os ys, crun ys os = runk cstep ys os.
Proof. induction os as [|o os IH]; intros y; [reflexivity|]. cbn [DblModel.crun runk]. destruct (cstep y o) as [y1 [u|e]]; auto. Qed.
Notation all_inside ys D := (forall y, In y ys -> inside_by (q_params y) D /\ inside_by (targ_params y) D).
Lemma goodm : forall ys D, 0 <= D -> (goodk K nS nA eQk eTk okk ys D <-> sgd_learners K lr sub ys /\ all_inside ys D).
Proof.
  intros ys D HD. split.
  - intros ((LY & OKS) & EQ & ET). split; [split; auto|]; intros y Iy; destruct (OKS y Iy) as ((SG & T1 & T2) & Ht).
    + split; auto. unfold has_targ in Ht. destruct (y_targ y); discriminate.
    + destruct (In_nth_error _ _ Iy) as [i Ei]. assert (Hi : (i < K)%nat) by (rewrite <- LY; apply nth_error_Some; congruence). rewrite !inside_tab by auto. split; (split; [auto|]; split; [apply T1 || apply T2|]); intros s a Hs Ha; [specialize (EQ i s a ltac:(repeat split; auto))|specialize (ET i s a ltac:(repeat split; auto))]; unfold eQk, eTk, at_learner in *; [now rewrite Ei in EQ|now rewrite Ei in ET].
  - intros [(LY & SG) AI]. assert (Z : forall y, In y ys -> (is_tab nS nA (q_params y) /\ tab_le (tab (q_params y)) D) /\ (is_tab nS nA (targ_params y) /\ tab_le (tab (targ_params y)) D)) by (intros y Iy; destruct (AI y Iy); split; now apply inside_tab).
    split; [split; auto; intros y Iy; destruct (SG y Iy) as [S1 S2], (Z y Iy) as ((Z1 & Z2) & Z3 & Z4); split; [split; auto|unfold has_targ; destruct (y_targ y); congruence]|].
    split; intros i s a (Hi & Hs & Ha); unfold eQk, eTk, at_learner; (destruct (nth_error ys i) as [y|] eqn:Ei; [|lra]); destruct (Z y (nth_error_In _ _ Ei)) as ((Z1 & Z2) & Z3 & Z4); [now apply Z2|now apply Z4].
Qed.
Lemma many_rounds : forall tau0 rs ys D, 0 < tau0 <= 1 -> 0 <= D <= D0 -> sgd_learners K lr sub ys -> all_inside ys D -> (forall r, In r rs -> c_round nS nA dyn gamma K lr wl tau0 B r) ->
  exists ys', crun ys (concat rs) = (ys', Ok tt) /\ sgd_learners K lr sub ys' /\ all_inside ys' ((1 - tau0 * (beta cl lr wl B * (1 - g))) ^ length rs * D).
Proof.
  intros tau0 rs ys D Ht HD SG AI RS.
  assert (HS : forall o j tau, cop_ok o -> synk o = Some (j, tau) -> 0 <= tau <= 1) by (intros [i b|i t] j tau O1 E; [discriminate|]; injection E as _ ->; apply O1).
  assert (HV : forall o v, synk o = Some v -> forall i s a : nat, ~ cvisits nA o i s a) by (intros [j b|j t] v E i s a V; [discriminate|exact V]).
  destruct (@roundsk_good K nS nA (list sys) cop cstep eQk eTk (cvisits nA) synk cop_ok okk (fun _ => true) g (beta cl lr wl B) D0 Hg Hbeta HS updk' sncks HV ltac:(discriminate) tau0 Ht rs ys D HD) as (ys' & R & G & N).
  - apply goodm; [lra|]. auto.
  - intros r Ir. destruct (RS r Ir) as (O1 & os1 & os2 & -> & C & S). split; auto. exists os1, os2. split; auto. split; [intros i s a (Hi & Hs & Ha); auto|]. intros i Hi. destruct (S i Hi) as (tau & It & T0). exists (CSync i tau), tau. auto.
  - assert (X := @ratek01 g (beta cl lr wl B) Hg Hbeta tau0 Ht). apply goodm in G; [|apply Rmult_le_pos; [apply pow_le|]; lra]. destruct G as (G1 & G2). exists ys'. rewrite crun_runk. auto.
Qed.
End Many.
End Gen.
