From Coq Require Import List Lia Bool Arith Reals Lra.
From Verif Require Import PyCommon CommonProofs UtilsSpec.
Import ListNotations.
Set Implicit Arguments.
Local Open Scope R_scope.

(** * Errors of several learners that shrink in rounds, for any system *)
Section Shrink.
Variables K nS nA : nat.
Variables X O : Type.
Variable step : X -> O -> X * outcome unit.
Variables eQ eT : X -> nat -> nat -> nat -> R.
Variable vis : O -> nat -> nat -> nat -> Prop.
Variable sync : O -> option (nat * R).
Variable okop : O -> Prop.
Variable ok : X -> Prop.
Variable ht : X -> bool.
Variables (gamma beta D0 : R).
Hypothesis Hg : 0 <= gamma <= 1.
Hypothesis Hbeta : 0 <= beta <= 1.
Definition inb (i s a : nat) : Prop := (i < K)%nat /\ (s < nS)%nat /\ (a < nA)%nat.
Definition lek (e : nat -> nat -> nat -> R) (D : R) : Prop := forall i s a, inb i s a -> e i s a <= D.
Hypothesis Hsync : forall o j tau, okop o -> sync o = Some (j, tau) -> 0 <= tau <= 1.
Hypothesis Supd : forall x o D, 0 <= D <= D0 -> ok x -> lek (eQ x) D -> lek (eT x) D -> okop o -> sync o = None ->
  exists x', step x o = (x', Ok tt) /\ ok x' /\ ht x' = ht x /\
  (forall i s a, inb i s a -> exists c, 0 <= c <= 1 /\ (vis o i s a -> beta <= c) /\ eQ x' i s a <= (1 - c) * eQ x i s a + c * (gamma * D)) /\
  (forall i s a, inb i s a -> eT x' i s a <= if ht x then eT x i s a else eQ x' i s a).
Hypothesis Ssync : forall x o j tau, ok x -> lek (eQ x) D0 -> lek (eT x) D0 -> okop o -> sync o = Some (j, tau) -> ht x = true ->
  exists x', step x o = (x', Ok tt) /\ ok x' /\ ht x' = true /\
  forall i s a, inb i s a -> eQ x' i s a <= eQ x i s a /\ if Nat.eqb i j then exists c, tau <= c <= 1 /\ eT x' i s a <= (1 - c) * eT x i s a + c * eQ x i s a else eT x' i s a <= eT x i s a.
Hypothesis Hvis : forall o v, sync o = Some v -> forall i s a, ~ vis o i s a.
Hypothesis Hnt : forall x, ok x -> ht x = false -> forall i s a, inb i s a -> eT x i s a <= eQ x i s a.
Fixpoint runk (x : X) (os : list O) : X * outcome unit :=
  match os with
  | [] => (x, Ok tt)
  | o :: os' => match step x o with (x1, Ok _) => runk x1 os' | (x1, Err e) => (x1, Err e) end
  end.
(** V: pairs updated since the beginning of the round; W: learners synchronised since all their pairs were updated. *)
Record invk (x : X) (D : R) (V : nat -> nat -> nat -> Prop) (k : R) (W : nat -> Prop) (r : R) : Prop := {
  k_ok : ok x;
  k_Q : lek (eQ x) D;
  k_V : forall i s a, inb i s a -> V i s a -> eQ x i s a <= k;
  k_T : lek (eT x) D;
  k_W : forall i s a, inb i s a -> W i -> eT x i s a <= r }.
Definition kappa : R := 1 - beta * (1 - gamma).
Lemma kap : 0 <= beta * (1 - gamma) <= 1 - gamma.
Proof. split; [apply Rmult_le_pos; lra|]. rewrite <- (Rmult_1_l (1 - gamma)) at 2. apply Rmult_le_compat_r; lra. Qed.
Lemma mix_le : forall c x y m, 0 <= c <= 1 -> x <= m -> y <= m -> (1 - c) * x + c * y <= m.
Proof. intros c x y m Hc Hx Hy. assert ((1 - c) * x <= (1 - c) * m) by (apply Rmult_le_compat_l; lra). assert (c * y <= c * m) by (apply Rmult_le_compat_l; lra). lra. Qed.
Lemma updk : forall x D V k W r o, 0 <= D <= D0 -> invk x D V k W r -> okop o -> sync o = None -> kappa * D <= k -> gamma * D <= k -> (ht x = false -> forall i, ~ W i) ->
  exists x', step x o = (x', Ok tt) /\ invk x' D (fun i s a => V i s a \/ vis o i s a) k W r /\ ht x' = ht x.
Proof.
  intros x D V k W r o HD [I1 I2 I3 I4 I5] OK Y K1 K2 NW. destruct (@Supd x o D HD I1 I2 I4 OK Y) as (x' & S1 & S2 & S3 & S4 & S5). exists x'. split; auto. split; auto.
  assert (GD : gamma * D <= D) by nra.
  assert (E' : lek (eQ x') D). { intros i s a H. destruct (S4 i s a H) as (c & C1 & _ & C3). eapply Rle_trans; [exact C3|]. apply mix_le; auto. }
  constructor; auto.
  - intros i s a H HV. destruct (S4 i s a H) as (c & C1 & C4 & C3). eapply Rle_trans; [exact C3|]. destruct HV as [HV|HV].
    + apply mix_le; auto.
    + specialize (C4 HV). pose proof (I2 i s a H). unfold kappa in K1. assert ((1 - c) * eQ x i s a <= (1 - c) * D) by (apply Rmult_le_compat_l; lra). assert (beta * ((1 - gamma) * D) <= c * ((1 - gamma) * D)) by (apply Rmult_le_compat_r; auto; apply Rmult_le_pos; lra). lra.
  - intros i s a H. eapply Rle_trans; [apply S5; auto|]. destruct (ht x); [now apply I4|now apply E'].
  - intros i s a H HW. eapply Rle_trans; [apply S5; auto|]. destruct (ht x) eqn:Ht; [now apply I5|]. destruct (NW eq_refl i HW).
Qed.
(** A synchronisation of learner j; it counts if all pairs of j have been updated. *)
Lemma synck : forall x D V k W r o j tau (U : nat -> Prop), 0 <= D <= D0 -> k <= D -> invk x D V k W r -> okop o -> sync o = Some (j, tau) -> ht x = true -> k <= r ->
  (forall i, U i -> i = j /\ (forall s a, V i s a) /\ (1 - tau) * D + tau * k <= r) -> (forall i s a, W i -> inb i s a -> V i s a) ->
  exists x', step x o = (x', Ok tt) /\ invk x' D V k (fun i => W i \/ U i) r /\ ht x' = true.
Proof.
  intros x D V k W r o j tau U HD KD [I1 I2 I3 I4 I5] OK Y Ht KR HU WV. pose proof (Hsync OK Y) as Hta. destruct (@Ssync x o j tau I1 (fun i s a H => Rle_trans _ _ _ (I2 i s a H) (proj2 HD)) (fun i s a H => Rle_trans _ _ _ (I4 i s a H) (proj2 HD)) OK Y Ht) as (x' & S1 & S2 & S3 & S4). exists x'. split; auto. split; auto. constructor; auto.
  - intros i s a H. destruct (S4 i s a H) as [A _]. eapply Rle_trans; [exact A|]. now apply I2.
  - intros i s a H HV. destruct (S4 i s a H) as [A _]. eapply Rle_trans; [exact A|]. now apply I3.
  - intros i s a H. destruct (S4 i s a H) as [_ A]. destruct (Nat.eqb i j); [|eapply Rle_trans; [exact A|now apply I4]]. destruct A as (c & C & A). eapply Rle_trans; [exact A|]. apply mix_le; auto. lra.
  - intros i s a H [HW|Hu]; destruct (S4 i s a H) as [_ A].
    + destruct (Nat.eqb i j); [|eapply Rle_trans; [exact A|now apply I5]]. destruct A as (c & C & A). eapply Rle_trans; [exact A|]. apply mix_le; auto; [lra|]. eapply Rle_trans; [apply I3; auto|auto].
    + destruct (HU i Hu) as (-> & HV & HR). rewrite Nat.eqb_refl in A. destruct A as (c & C & A). eapply Rle_trans; [|exact HR]. eapply Rle_trans; [exact A|]. assert ((1 - c) * eT x j s a <= (1 - c) * D) by (apply Rmult_le_compat_l; [lra|now apply I4]). assert (c * eQ x j s a <= c * k) by (apply Rmult_le_compat_l; [lra|apply I3; auto]). assert (tau * (D - k) <= c * (D - k)) by (apply Rmult_le_compat_r; lra). lra.
Qed.
Lemma runk_app : forall a b x, runk x (a ++ b) = match runk x a with (x1, Ok _) => runk x1 b | r => r end.
Proof. induction a as [|o a IH]; intros b x; [reflexivity|]. cbn [app runk]. destruct (step x o) as [x1 [u|e]]; auto. Qed.
Lemma weaken : forall x D (V V' : nat -> nat -> nat -> Prop) k (W W' : nat -> Prop) r, invk x D V k W r -> (forall i s a, inb i s a -> V' i s a -> V i s a) -> (forall i, W' i -> W i) -> invk x D V' k W' r.
Proof. intros x D V V' k W W' r [I1 I2 I3 I4 I5] H1 H2. constructor; auto. Qed.
Lemma invk_run : forall os x D V k, 0 <= D <= D0 -> invk x D V k (fun _ => False) D -> (forall o, In o os -> okop o) -> (ht x = false -> forall o, In o os -> sync o = None) -> kappa * D <= k -> gamma * D <= k -> k <= D ->
  exists x', runk x os = (x', Ok tt) /\ invk x' D (fun i s a => V i s a \/ exists o, In o os /\ vis o i s a) k (fun _ => False) D /\ ht x' = ht x.
Proof.
  induction os as [|o os IH]; intros x D V k HD I OK NS K1 K2 K3.
  - exists x. split; auto. split; auto. eapply weaken; [exact I| |auto]. intros i s a _ [HV|(? & [] & _)]. auto.
  - assert (Z : exists x1, step x o = (x1, Ok tt) /\ invk x1 D (fun i s a => V i s a \/ vis o i s a) k (fun _ => False) D /\ ht x1 = ht x).
    { destruct (sync o) as [[j tau]|] eqn:Y.
      - destruct (ht x) eqn:Ht; [|assert (sync o = None) by (apply NS; auto; now left); congruence]. destruct (@synck x D V k (fun _ => False) D o j tau (fun _ => False)) as (x1 & S1 & I1 & N1); auto; try tauto; try lra; try (apply OK; now left). exists x1. split; auto. split; auto. eapply weaken; [exact I1| |tauto]. intros i s a _ [HV|HV]; auto. destruct (@Hvis _ _ Y i s a HV).
      - apply updk; auto. apply OK. now left. }
    destruct Z as (x1 & S1 & I1 & N1). cbn [runk]. rewrite S1. destruct (IH x1 D _ k HD I1) as (x' & R' & I' & N'); auto; [intros; apply OK; now right|rewrite N1; intros N o' Ho; apply NS; auto; now right|].
    exists x'. split; auto. split; [|congruence]. eapply weaken; [exact I'| |auto]. intros i s a _ [HV|(o' & [<-|Io] & Vo)]; eauto.
Qed.
Definition goodk (x : X) (D : R) : Prop := ok x /\ lek (eQ x) D /\ lek (eT x) D.
Lemma goodk_inv : forall x D k r, goodk x D -> invk x D (fun _ _ _ => False) k (fun _ => False) r.
Proof. intros x D k r (A & B & C). constructor; auto; tauto. Qed.
Lemma neverk : forall os x D, 0 <= D <= D0 -> goodk x D -> (forall o, In o os -> okop o) -> (ht x = false -> forall o, In o os -> sync o = None) ->
  exists x', runk x os = (x', Ok tt) /\ goodk x' D /\ ht x' = ht x.
Proof.
  intros os x D HD G OK NS. pose proof kap. destruct (@invk_run os x D (fun _ _ _ => False) D HD (goodk_inv _ _ G) OK NS) as (x' & R & [J1 J2 J3 J4 J5] & N).
  - unfold kappa. assert (0 <= beta * (1 - gamma) * D) by (apply Rmult_le_pos; lra). lra.
  - nra.
  - lra.
  - exists x'. repeat split; auto.
Qed.
Variable tau0 : R.
Hypothesis Ht0 : 0 < tau0 <= 1.
Definition coverk (os : list O) : Prop := forall i s a, inb i s a -> exists o, In o os /\ vis o i s a.
Definition roundk (x : X) (os : list O) : Prop :=
  (forall o, In o os -> okop o) /\
  if ht x then exists os1 os2, os = os1 ++ os2 /\ coverk os1 /\ forall i, (i < K)%nat -> exists o tau, In o os2 /\ sync o = Some (i, tau) /\ tau0 <= tau
  else coverk os /\ forall o, In o os -> sync o = None.
Definition ratek : R := 1 - tau0 * (beta * (1 - gamma)).
Lemma ratek01 : kappa <= ratek /\ 0 <= ratek <= 1.
Proof.
  pose proof kap as X0. unfold kappa, ratek. assert (0 <= tau0 * (beta * (1 - gamma)) <= 1 * (beta * (1 - gamma))) by (split; [apply Rmult_le_pos; lra|apply Rmult_le_compat_r; lra]). lra.
Qed.
(** After all pairs have been updated. *)
Lemma syncs_run : forall os x D W, 0 <= D <= D0 -> invk x D (fun _ _ _ => True) (kappa * D) W (ratek * D) -> (forall o, In o os -> okop o) -> ht x = true ->
  exists x', runk x os = (x', Ok tt) /\ invk x' D (fun _ _ _ => True) (kappa * D) (fun i => W i \/ exists o tau, In o os /\ sync o = Some (i, tau) /\ tau0 <= tau) (ratek * D) /\ ht x' = true.
Proof.
  pose proof kap as X0. pose proof ratek01 as [KR K0]. induction os as [|o os IH]; intros x D W HD I OK Ht.
  - exists x. split; auto. split; auto. eapply weaken; [exact I|auto|]. intros i [HW|(? & ? & [] & _)]. auto.
  - assert (KD : kappa * D <= D) by (unfold kappa; rewrite <- (Rmult_1_l D) at 2; apply Rmult_le_compat_r; lra).
    assert (Z : exists x1, step x o = (x1, Ok tt) /\ invk x1 D (fun _ _ _ => True) (kappa * D) (fun i => W i \/ exists tau, sync o = Some (i, tau) /\ tau0 <= tau) (ratek * D) /\ ht x1 = true).
    { destruct (sync o) as [[j tau]|] eqn:Y.
      - destruct (@synck x D (fun _ _ _ => True) (kappa * D) W (ratek * D) o j tau (fun i => i = j /\ tau0 <= tau)) as (x1 & S1 & I1 & N1); auto; try lra.
        + apply OK. now left.
        + apply Rmult_le_compat_r; lra.
        + intros i [-> T0]. split; auto. split; auto. unfold kappa, ratek. assert (tau0 * (beta * (1 - gamma) * D) <= tau * (beta * (1 - gamma) * D)) by (apply Rmult_le_compat_r; auto; apply Rmult_le_pos; lra). lra.
        + exists x1. split; auto. split; auto. eapply weaken; [exact I1|auto|]. intros i [HW|(t & E & T0)]; auto. injection E as -> ->. auto.
      - destruct (@updk x D (fun _ _ _ => True) (kappa * D) W (ratek * D) o) as (x1 & S1 & I1 & N1); auto; try lra.
        + apply OK. now left.
        + unfold kappa. apply Rmult_le_compat_r; lra.
        + rewrite Ht. discriminate.
        + exists x1. split; auto. split; [|congruence]. eapply weaken; [exact I1|intros; now left|]. intros i [HW|(t & E & _)]; auto. discriminate. }
    destruct Z as (x1 & S1 & I1 & N1). cbn [runk]. rewrite S1. destruct (IH x1 D _ HD I1) as (x' & R' & I' & N'); auto; [intros; apply OK; now right|]. exists x'. split; auto. split; auto. eapply weaken; [exact I'|auto|]. intros i [HW|(o' & t & [<-|Io] & E & T0)]; eauto. right. eauto.
Qed.
Lemma roundk_good : forall os x D, 0 <= D <= D0 -> goodk x D -> roundk x os -> exists x', runk x os = (x', Ok tt) /\ goodk x' (ratek * D) /\ ht x' = ht x.
Proof.
  intros os x D HD G [OK RD]. pose proof kap as X0. pose proof ratek01 as [KR K0].
  assert (KG : gamma * D <= kappa * D) by (unfold kappa; apply Rmult_le_compat_r; lra). assert (K' : kappa * D <= D) by (unfold kappa; rewrite <- (Rmult_1_l D) at 2; apply Rmult_le_compat_r; lra).
  assert (KRD : kappa * D <= ratek * D) by (apply Rmult_le_compat_r; lra).
  destruct (ht x) eqn:Ht.
  - destruct RD as (os1 & os2 & -> & C & SY).
    destruct (@invk_run os1 x D (fun _ _ _ => False) (kappa * D) HD (goodk_inv _ _ G)) as (x1 & R1 & I1 & N1); auto; try lra; [intros; apply OK; apply in_or_app; now left|rewrite Ht; discriminate|].
    assert (J1 : invk x1 D (fun _ _ _ => True) (kappa * D) (fun _ => False) (ratek * D)). { destruct I1 as [A1 A2 A3 A4 A5]. constructor; auto; try tauto. }
    destruct (@syncs_run os2 x1 D _ HD J1) as (x2 & R2 & [A1 A2 A3 A4 A5] & N2); [intros; apply OK; apply in_or_app; now right|congruence|].
    exists x2. rewrite runk_app, R1, R2. split; auto. split; auto. split; auto. split.
    + intros i s a H. eapply Rle_trans; [apply A3; auto|auto].
    + intros i s a H. apply A5; auto. right. destruct H as (Hi & _). destruct (SY i Hi) as (o & tau & ? & ? & ?). eauto.
  - destruct RD as [C NS]. destruct (@invk_run os x D (fun _ _ _ => False) (kappa * D) HD (goodk_inv _ _ G)) as (x1 & R1 & [A1 A2 A3 A4 A5] & N1); auto; try lra.
    exists x1. split; auto. split; [|congruence]. split; auto.
    assert (Q : lek (eQ x1) (ratek * D)) by (intros i s a H; eapply Rle_trans; [apply A3; auto|auto]).
    split; auto. intros i s a H. eapply Rle_trans; [apply Hnt; auto; congruence|]. now apply Q.
Qed.
Lemma roundk_ht : forall x x' os, ht x' = ht x -> roundk x os -> roundk x' os.
Proof. intros x x' os E [A B]. split; auto. now rewrite E. Qed.
Lemma roundsk_good : forall rs x D, 0 <= D <= D0 -> goodk x D -> (forall r, In r rs -> roundk x r) -> exists x', runk x (concat rs) = (x', Ok tt) /\ goodk x' (ratek ^ length rs * D) /\ ht x' = ht x.
Proof.
  pose proof ratek01 as [_ K0]. induction rs as [|r rs IH]; intros x D HD G RS.
  - exists x. cbn. rewrite Rmult_1_l. auto.
  - destruct (@roundk_good r x D HD G (RS r (or_introl eq_refl))) as (x1 & R1 & G1 & N1). cbn [concat]. rewrite runk_app, R1.
    destruct (IH x1 (ratek * D)) as (x' & R' & G' & N'); auto.
    + split; [apply Rmult_le_pos; lra|]. apply Rle_trans with (1 * D); [apply Rmult_le_compat_r; lra|lra].
    + intros r' I'. eapply roundk_ht; [exact N1|]. apply RS. now right.
    + exists x'. split; auto. split; [|congruence]. cbn [length pow]. replace (ratek * ratek ^ length rs * D) with (ratek ^ length rs * (ratek * D)) by ring. exact G'.
Qed.
End Shrink.
