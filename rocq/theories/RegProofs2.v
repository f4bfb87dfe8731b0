(** Proofs for RegModel.v: the learned values are soft values. *)
From Coq Require Import List Lia Bool Arith Reals Lra.
From Verif Require Import PyCommon CommonProofs UtilsModel UtilsSpec UtilsProofs2 UtilsProofs3 WrappersProofs DistModel DistSpec DistProofs DistProofs2 DistProofs3 LossModel LossSpec LossProofs QModel QProofs QProps TDModel TDSpec TDProofs TDProofs2 TDProofs3 TDProofs4 CoreModel CoreSpec LearnModel LearnSpec LearnProofs LearnProofs5 RegModel RegSpec RegProofs.
Import ListNotations.
Set Implicit Arguments.
Local Open Scope R_scope.

Section Soft.
Variable nA : nat.
Hypothesis HA : (1 <= nA)%nat.
Lemma expectation_shift : forall (l : list R) h c, length l = nA -> expectation nA (boltzmann nA l) (fun a => h a + c) = expectation nA (boltzmann nA l) h + c.
Proof.
  intros l h c L. unfold expectation. destruct (@boltzmann_dist nA HA l L) as [_ T].
  rewrite (@total_ext _ _ (fun a => boltzmann nA l a * h a + c * boltzmann nA l a)) by (intros; ring). rewrite total_plus, total_scal. rewrite T. ring.
Qed.
Lemma expectation_ext : forall p h h', (forall a, (a < nA)%nat -> h a = h' a) -> expectation nA p h = expectation nA p h'.
Proof. intros p h h' E. unfold expectation. apply total_ext. intros a Ha. apply in_seq in Ha. now rewrite E by lia. Qed.
Variables (nS : nat) (dyn : nat -> nat -> nat * R * bool) (gamma beta : R) (pi : nat -> list R) (q : nat -> nat -> R).
Hypothesis HP : forall s, length (pi s) = nA.
Hypothesis CL : closed nS nA dyn.
Hypothesis BE : bellman nS nA (with_bonus nA (EntropyReg beta pi) dyn) gamma (by_policy nA pi) q.
Notation Hs s := (entropy_of nA (boltzmann nA (pi s))).
Notation V s := (expectation nA (boltzmann nA (pi s)) (q s)).
Lemma be_eq : forall s a, (s < nS)%nat -> (a < nA)%nat -> q s a = reward dyn s a + (if ends dyn s a then 0 else gamma * V (next dyn s a)) + beta * Hs s.
Proof. intros s a H1 H2. destruct (BE H1 H2) as (m & -> & E). rewrite E. unfold with_bonus, reward, ends, next, bonus. cbn [fst snd]. lra. Qed.
Lemma soft_is : soft_bellman nS nA dyn gamma beta pi (fun s a => q s a - beta * Hs s).
Proof.
  intros s a H1 H2. rewrite (be_eq H1 H2). destruct (ends dyn s a); [lra|].
  assert (E : expectation nA (boltzmann nA (pi (next dyn s a))) (fun a0 => q (next dyn s a) a0 - beta * Hs (next dyn s a)) = V (next dyn s a) - beta * Hs (next dyn s a)).
  { unfold Rminus. apply (@expectation_shift (pi (next dyn s a)) (q (next dyn s a)) (- (beta * Hs (next dyn s a)))). apply HP. }
  cbv beta. rewrite E. lra.
Qed.
Hypothesis Hg : 0 <= gamma <= 1.
Lemma v_eq : forall s, (s < nS)%nat -> V s = beta * Hs s + expectation nA (boltzmann nA (pi s)) (fun a => reward dyn s a + (if ends dyn s a then 0 else gamma * V (next dyn s a))).
Proof. intros s H1. rewrite (@expectation_ext _ (q s) (fun a => (reward dyn s a + (if ends dyn s a then 0 else gamma * V (next dyn s a))) + beta * Hs s)) by (intros; now apply be_eq). rewrite expectation_shift by apply HP. ring. Qed.
Lemma v_bound : forall s, (s < nS)%nat -> Rabs (V s) <= bound nS nA q.
Proof.
  intros s H1. assert (E : V s = V s - expectation nA (boltzmann nA (pi s)) (fun _ => 0)).
  { unfold expectation at 3. rewrite (@total_ext _ _ (fun _ => 0)) by (intros; ring). rewrite total_const. ring. }
  rewrite E. apply expectation_close; auto. intros a Ha. rewrite Rminus_0_r. now apply bound_ok.
Qed.
Lemma return_close : forall n s, (s < nS)%nat -> Rabs (V s - soft_return nA dyn gamma beta pi n s) <= gamma ^ n * bound nS nA q.
Proof.
  induction n as [|n IH]; intros s H1.
  - cbn. rewrite Rminus_0_r, Rmult_1_l. now apply v_bound.
  - rewrite v_eq by auto. cbn [soft_return]. match goal with |- Rabs (?x + ?y - (?x + ?z)) <= _ => replace (x + y - (x + z)) with (y - z) by ring end. apply expectation_close; auto. intros a Ha. cbv beta.
    assert (G0 : 0 <= gamma ^ S n * bound nS nA q) by (apply Rmult_le_pos; [apply pow_le; lra|apply bound_pos]).
    destruct (ends dyn s a); [match goal with |- Rabs ?e <= _ => replace e with 0 by ring end; now rewrite Rabs_R0|]. match goal with |- Rabs ?e <= _ => replace e with (gamma * (V (next dyn s a) - soft_return nA dyn gamma beta pi n (next dyn s a))) by ring end.
    rewrite Rabs_mult, (Rabs_right gamma) by lra. cbn [pow]. rewrite Rmult_assoc. apply Rmult_le_compat_l; [lra|]. apply IH. now apply CL.
Qed.
End Soft.
