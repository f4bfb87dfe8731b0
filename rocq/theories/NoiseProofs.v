From Coq Require Import List Lia Bool Arith Reals Lra.
From Verif Require Import PyCommon CommonProofs UtilsSpec.
Import ListNotations.
Set Implicit Arguments.
Local Open Scope R_scope.

(** * Errors that shrink in rounds, for any system *)
Section Shrink.
Variables nS nA : nat.
Variables X O : Type.
Variable step : X -> O -> X * outcome unit.
Variables eQ eT : X -> nat -> nat -> R.
Variable vis : O -> nat -> nat -> Prop.
Variable sync : O -> option R.
Variable okop : O -> Prop.
Variable ok : X -> Prop.
Variable ht : X -> bool.
Variables (gamma beta D0 : R).
Hypothesis Hg : 0 <= gamma <= 1.
Hypothesis Hbeta : 0 <= beta <= 1.
Definition le (e : nat -> nat -> R) (D : R) : Prop := forall s a, (s < nS)%nat -> (a < nA)%nat -> e s a <= D.
Hypothesis Hsync : forall o tau, okop o -> sync o = Some tau -> 0 <= tau <= 1.
Hypothesis Supd : forall x o D, 0 <= D <= D0 -> ok x -> le (eQ x) D -> le (eT x) D -> okop o -> sync o = None ->
  exists x', step x o = (x', Ok tt) /\ ok x' /\ ht x' = ht x /\
  (forall s a, (s < nS)%nat -> (a < nA)%nat -> exists c, 0 <= c <= 1 /\ (vis o s a -> beta <= c) /\ eQ x' s a <= (1 - c) * eQ x s a + c * (gamma * D)) /\
  (forall s a, (s < nS)%nat -> (a < nA)%nat -> eT x' s a <= if ht x then eT x s a else eQ x' s a).
Hypothesis Ssync : forall x o tau, ok x -> okop o -> sync o = Some tau -> ht x = true ->
  exists x', step x o = (x', Ok tt) /\ ok x' /\ ht x' = true /\
  forall s a, (s < nS)%nat -> (a < nA)%nat -> eQ x' s a <= eQ x s a /\ eT x' s a <= (1 - tau) * eT x s a + tau * eQ x s a.
Hypothesis Hvis : forall o tau, sync o = Some tau -> forall s a, ~ vis o s a.
Fixpoint run (x : X) (os : list O) : X * outcome unit :=
  match os with
  | [] => (x, Ok tt)
  | o :: os' => match step x o with (x1, Ok _) => run x1 os' | (x1, Err e) => (x1, Err e) end
  end.
Record inv (x : X) (D : R) (V : nat -> nat -> Prop) (k : R) : Prop := {
  i_ok : ok x;
  i_Q : le (eQ x) D;
  i_V : forall s a, (s < nS)%nat -> (a < nA)%nat -> V s a -> eQ x s a <= k;
  i_T : le (eT x) D }.
Definition kappa : R := 1 - beta * (1 - gamma).
Lemma kap : 0 <= beta * (1 - gamma) <= 1 - gamma.
Proof. split; [apply Rmult_le_pos; lra|]. rewrite <- (Rmult_1_l (1 - gamma)) at 2. apply Rmult_le_compat_r; lra. Qed.
Lemma step_inv : forall x D V k o, 0 <= D <= D0 -> inv x D V k -> okop o -> (ht x = false -> sync o = None) -> kappa * D <= k -> gamma * D <= k -> k <= D ->
  exists x', step x o = (x', Ok tt) /\ inv x' D (fun s a => V s a \/ vis o s a) k /\ ht x' = ht x.
Proof.
  intros x D V k o HD [I1 I2 I3 I4] OK NS K1 K2 K3. destruct (sync o) as [tau|] eqn:Y.
  - destruct (ht x) eqn:Ht; [|specialize (NS eq_refl); discriminate]. pose proof (Hsync OK Y) as Hta. destruct (@Ssync x o tau I1 OK Y Ht) as (x' & S1 & S2 & S3 & S4). exists x'. split; auto. split; auto. constructor; auto.
    + intros s a Hs Ha. destruct (S4 s a Hs Ha) as [A _]. eapply Rle_trans; [exact A|]. now apply I2.
    + intros s a Hs Ha [V1|V1]; [|destruct (@Hvis _ _ Y s a V1)]. destruct (S4 s a Hs Ha) as [A _]. eapply Rle_trans; [exact A|]. now apply I3.
    + intros s a Hs Ha. destruct (S4 s a Hs Ha) as [_ A]. eapply Rle_trans; [exact A|]. pose proof (I2 s a Hs Ha). pose proof (I4 s a Hs Ha). assert ((1 - tau) * eT x s a <= (1 - tau) * D) by (apply Rmult_le_compat_l; lra). assert (tau * eQ x s a <= tau * D) by (apply Rmult_le_compat_l; lra). lra.
  - destruct (@Supd x o D HD I1 I2 I4 OK Y) as (x' & S1 & S2 & S3 & S4 & S5). exists x'. split; auto. split; auto.
    assert (E' : le (eQ x') D). { intros s a Hs Ha. destruct (S4 s a Hs Ha) as (c & [C1 C2] & _ & C3). pose proof (I2 s a Hs Ha). eapply Rle_trans; [exact C3|]. assert (c * (gamma * D) <= c * D) by (apply Rmult_le_compat_l; nra). assert ((1 - c) * eQ x s a <= (1 - c) * D) by (apply Rmult_le_compat_l; lra). lra. }
    constructor; auto.
    + intros s a Hs Ha HV. destruct (S4 s a Hs Ha) as (c & [C1 C2] & C4 & C3). eapply Rle_trans; [exact C3|]. destruct HV as [HV|HV].
      * specialize (I3 s a Hs Ha HV). assert ((1 - c) * eQ x s a <= (1 - c) * k) by (apply Rmult_le_compat_l; lra). assert (c * (gamma * D) <= c * k) by (apply Rmult_le_compat_l; lra). lra.
      * specialize (C4 HV). pose proof (I2 s a Hs Ha). unfold kappa in K1. assert ((1 - c) * eQ x s a <= (1 - c) * D) by (apply Rmult_le_compat_l; lra). assert (beta * ((1 - gamma) * D) <= c * ((1 - gamma) * D)) by (apply Rmult_le_compat_r; auto; apply Rmult_le_pos; lra). lra.
    + intros s a Hs Ha. eapply Rle_trans; [apply S5; auto|]. destruct (ht x); [now apply I4|now apply E'].
Qed.
Lemma run_inv : forall os x D V k, 0 <= D <= D0 -> inv x D V k -> (forall o, In o os -> okop o) -> (ht x = false -> forall o, In o os -> sync o = None) -> kappa * D <= k -> gamma * D <= k -> k <= D ->
  exists x', run x os = (x', Ok tt) /\ inv x' D (fun s a => V s a \/ exists o, In o os /\ vis o s a) k /\ ht x' = ht x.
Proof.
  induction os as [|o os IH]; intros x D V k HD I OK NS K1 K2 K3.
  - exists x. split; auto. split; auto. destruct I as [I1 I2 I3 I4]. constructor; auto. intros s a Hs Ha [HV|(? & [] & _)]. now apply I3.
  - destruct (@step_inv x D V k o) as (x1 & S1 & I1 & N1); auto; [apply OK; now left|intros N; apply NS; auto; now left|]. cbn [run]. rewrite S1. destruct (IH x1 D _ k HD I1) as (x' & R & I' & N'); auto; [intros; apply OK; now right|rewrite N1; intros N o' Ho; apply NS; auto; now right|].
    exists x'. split; auto. split; [|congruence]. destruct I' as [J1 J2 J3 J4]. constructor; auto. intros s a Hs Ha [HV|(o' & [<-|Io] & Vo)]; apply J3; eauto.
Qed.
Lemma run_app : forall a b x, run x (a ++ b) = match run x a with (x1, Ok _) => run x1 b | r => r end.
Proof. induction a as [|o a IH]; intros b x; [reflexivity|]. cbn [app run]. destruct (step x o) as [x1 [u|e]]; auto. Qed.
Definition good (x : X) (D : R) : Prop := ok x /\ le (eQ x) D /\ le (eT x) D.
Lemma good_inv : forall x D k, good x D -> inv x D (fun _ _ => False) k.
Proof. intros x D k (A & B & C). constructor; auto. intros ? ? ? ? []. Qed.
Lemma never_worse : forall os x D, 0 <= D <= D0 -> good x D -> (forall o, In o os -> okop o) -> (ht x = false -> forall o, In o os -> sync o = None) ->
  exists x', run x os = (x', Ok tt) /\ good x' D /\ ht x' = ht x.
Proof.
  intros os x D HD G OK NS. pose proof kap. destruct (@run_inv os x D (fun _ _ => False) D HD (good_inv _ G) OK NS) as (x' & R & [J1 J2 J3 J4] & N).
  - unfold kappa. assert (0 <= beta * (1 - gamma) * D) by (apply Rmult_le_pos; lra). lra.
  - nra.
  - lra.
  - exists x'. repeat split; auto.
Qed.
Variable tau0 : R.
Hypothesis Ht0 : 0 < tau0 <= 1.
Definition cover (os : list O) : Prop := forall s a, (s < nS)%nat -> (a < nA)%nat -> exists o, In o os /\ vis o s a.
Definition round (x : X) (os : list O) : Prop :=
  (forall o, In o os -> okop o) /\
  if ht x then exists os1 o tau os2, os = os1 ++ o :: os2 /\ sync o = Some tau /\ cover os1 /\ tau0 <= tau
  else cover os /\ forall o, In o os -> sync o = None.
Definition rate : R := 1 - tau0 * (beta * (1 - gamma)).
Lemma covered : forall os x D, 0 <= D <= D0 -> good x D -> (forall o, In o os -> okop o) -> (ht x = false -> forall o, In o os -> sync o = None) -> cover os ->
  exists x', run x os = (x', Ok tt) /\ ht x' = ht x /\ ok x' /\ le (eQ x') (kappa * D) /\ le (eT x') D.
Proof.
  intros os x D HD G OK NS C. pose proof kap as X0.
  assert (K : gamma * D <= kappa * D) by (unfold kappa; apply Rmult_le_compat_r; lra). assert (K' : kappa * D <= D) by (unfold kappa; rewrite <- (Rmult_1_l D) at 2; apply Rmult_le_compat_r; lra).
  destruct (@run_inv os x D (fun _ _ => False) (kappa * D) HD (good_inv _ G) OK NS) as (x' & R & [J1 J2 J3 J4] & N); auto; try lra. exists x'. split; auto. split; auto. split; auto. split; auto. intros s a Hs Ha. apply J3; auto.
Qed.
Lemma rate01 : kappa <= rate /\ 0 <= rate <= 1.
Proof.
  pose proof kap as X0. unfold kappa, rate. assert (0 <= tau0 * (beta * (1 - gamma)) <= 1 * (beta * (1 - gamma))) by (split; [apply Rmult_le_pos; lra|apply Rmult_le_compat_r; lra]). lra.
Qed.
Lemma round_good : forall os x D, 0 <= D <= D0 -> good x D -> round x os -> exists x', run x os = (x', Ok tt) /\ good x' (rate * D) /\ ht x' = ht x.
Proof.
  intros os x D HD G [OK RD]. pose proof kap as X0. pose proof rate01 as [KR K0]. destruct (ht x) eqn:Ht.
  - destruct RD as (os1 & o & tau & os2 & -> & Y & C & Htau). assert (Io : In o (os1 ++ o :: os2)) by (apply in_or_app; right; now left). assert (OT := Hsync (OK o Io) Y).
    destruct (@covered os1 x D HD G) as (x1 & R1 & N1 & O1 & Q1 & T1); auto; [intros; apply OK; apply in_or_app; now left|rewrite Ht; discriminate|].
    rewrite run_app, R1. cbn [run]. destruct (@Ssync x1 o tau O1 (OK o Io) Y) as (x2 & S1 & S2 & S3 & S4); [congruence|]. rewrite S1.
    assert (G2 : good x2 (rate * D)).
    { split; auto. split; intros s a Hs Ha; destruct (S4 s a Hs Ha) as [A1 A2]; pose proof (Q1 s a Hs Ha) as B1; pose proof (T1 s a Hs Ha) as B2.
      - eapply Rle_trans; [exact A1|]. eapply Rle_trans; [exact B1|]. apply Rmult_le_compat_r; lra.
      - eapply Rle_trans; [exact A2|]. assert (tau * eQ x1 s a <= tau * (kappa * D)) by (apply Rmult_le_compat_l; lra). assert ((1 - tau) * eT x1 s a <= (1 - tau) * D) by (apply Rmult_le_compat_l; lra).
        assert (tau0 * (beta * (1 - gamma) * D) <= tau * (beta * (1 - gamma) * D)) by (apply Rmult_le_compat_r; auto; apply Rmult_le_pos; lra). unfold rate, kappa in *. lra. }
    destruct (@never_worse os2 x2 (rate * D)) as (x' & R' & G' & N'); auto.
    + split; [apply Rmult_le_pos; lra|]. apply Rle_trans with (1 * D); [apply Rmult_le_compat_r; lra|lra].
    + intros; apply OK; apply in_or_app; right; now right.
    + rewrite S3. discriminate.
    + exists x'. split; auto. split; auto. congruence.
  - destruct RD as [C NS]. destruct os as [|o os].
    + exists x. split; auto. split; auto. destruct G as (G1 & G2 & G3). split; auto. split; intros s a Hs Ha; destruct (C s a Hs Ha) as (? & [] & _).
    + destruct (@exists_last _ (o :: os)) as (os' & ol & EL); [discriminate|]. rewrite EL in *. clear EL o os. rewrite run_app.
      destruct (@never_worse os' x D HD G) as (x1 & R1 & (O1 & Q1 & T1) & N1); [intros; apply OK; apply in_or_app; now left|intros _ o Ho; apply NS; apply in_or_app; now left|]. 
      destruct (@covered (os' ++ [ol]) x D HD G OK) as (x2 & R2 & N2 & O2 & Q2 & T2); auto. rewrite run_app, R1 in R2. rewrite R1. exists x2. split; auto. split; [|congruence].
      assert (Il : In ol (os' ++ [ol])) by (apply in_or_app; right; now left). cbn [run] in R2. destruct (@Supd x1 ol D HD O1 Q1 T1 (OK ol Il) (NS ol Il)) as (x3 & S1 & S2 & S3 & S4 & S5). rewrite S1 in R2. injection R2 as <-.
      assert (QQ : le (eQ x3) (rate * D)) by (intros s a Hs Ha; eapply Rle_trans; [now apply Q2|apply Rmult_le_compat_r; lra]).
      split; auto. split; auto. intros s a Hs Ha. specialize (S5 s a Hs Ha). rewrite N1, Ht in S5. eapply Rle_trans; [exact S5|]. now apply QQ.
Qed.
Lemma round_kind : forall x x' os, ht x' = ht x -> round x os -> round x' os.
Proof. intros x x' os E. unfold round. now rewrite E. Qed.
Lemma rounds_good : forall rs x D, 0 <= D <= D0 -> good x D -> (forall os, In os rs -> round x os) -> exists x', run x (concat rs) = (x', Ok tt) /\ good x' (rate ^ length rs * D) /\ ht x' = ht x.
Proof.
  induction rs as [|os rs IH]; intros x D HD G RD.
  - exists x. split; auto. split; auto. cbn [length pow]. now rewrite Rmult_1_l.
  - destruct (@round_good os x D HD G) as (x1 & R1 & G1 & N1); [apply RD; now left|]. pose proof rate01 as [_ K0].
    destruct (IH x1 (rate * D)) as (x' & R' & G' & N'); auto.
    + split; [apply Rmult_le_pos; lra|]. apply Rle_trans with (1 * D); [apply Rmult_le_compat_r; lra|lra].
    + intros os' I. apply (@round_kind x); auto. apply RD. now right.
    + exists x'. cbn [concat]. rewrite run_app, R1. split; auto. split; [|congruence]. cbn [length pow]. replace (rate * rate ^ length rs * D) with (rate ^ length rs * (rate * D)) by ring. auto.
Qed.
End Shrink.
