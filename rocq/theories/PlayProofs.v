From Coq Require Import List Lia Bool Arith Reals Lra.
From Verif Require Import PyCommon CommonProofs UtilsModel UtilsSpec UtilsProofs2 UtilsProofs3 DistModel DistSpec DistProofs DistProofs2 LossModel LossSpec QModel TDModel TDSpec TDProofs PolicyModel PolicySpec PolicyProps LearnSpec LearnProofs5 PlayModel PlaySpec.
Import ListNotations.
Set Implicit Arguments.
Local Open Scope R_scope.

Section Greedy.
Variables nS nA : nat.
Variable dyn : nat -> nat -> nat * R * bool.
Variable gamma : R.
Variable q : nat -> nat -> R.
Hypothesis HA : (1 <= nA)%nat.
Hypothesis CL : closed nS nA dyn.
Hypothesis Hg : 0 <= gamma <= 1.
Hypothesis BE : bellman nS nA dyn gamma (by_max nA) q.
Variable M : R.
Hypothesis HM : forall s a, (s < nS)%nat -> (a < nA)%nat -> Rabs (q s a) <= M.

Lemma max_in : forall s m, (s < nS)%nat -> is_maximum nA (q s) m -> - M <= m <= M.
Proof. intros s m Hs [(a & Ha & <-) _]. specialize (HM Hs Ha). unfold Rabs in HM. destruct (Rcase_abs _); lra. Qed.
Lemma max_unique : forall h m m', is_maximum nA h m -> is_maximum nA h m' -> m = m'.
Proof. intros h m m' [(a & Ha & <-) H] [(b & Hb & <-) H']. specialize (H b Hb). specialize (H' a Ha). lra. Qed.
Lemma max_exists : forall h : nat -> R, exists m, is_maximum nA h m.
Proof. intros h. destruct (arg_max h HA) as (a & Ha & X). exists (h a). split; [exists a; auto|auto]. Qed.

Lemma q_step : forall s a, (s < nS)%nat -> (a < nA)%nat -> exists m, is_maximum nA (q (next dyn s a)) m /\ q s a = reward dyn s a + (if ends dyn s a then 0 else gamma * m).
Proof. intros s a Hs Ha. exact (BE Hs Ha). Qed.

(** One step at a time: an agent whose actions lose at most L. *)
Section Loss.
Variable X : Type.
Variable choose : nat -> X -> outcome nat.
Variable fine : X -> Prop.
Variable L : R.
Hypothesis CH : forall s x m, (s < nS)%nat -> fine x -> is_maximum nA (q s) m -> exists a, choose s x = Ok a /\ (a < nA)%nat /\ m - L <= q s a.
Lemma play_gain : forall xs s m, (s < nS)%nat -> (forall x, In x xs -> fine x) -> is_maximum nA (q s) m ->
  exists h, play choose dyn s xs = Ok h /\ episode_of dyn (length xs) s h /\
    (forall s' a r d, In (s', a, r, d) h -> (s' < nS)%nat /\ exists x, In x xs /\ choose s' x = Ok a) /\
    m - L * geometric gamma (length xs) - gamma ^ length xs * M <= gain gamma h <= m + gamma ^ length xs * M.
Proof.
  induction xs as [|x xs IH]; intros s m Hs HX Hm.
  - exists []. split; [reflexivity|]. split; [constructor|]. split; [intros ? ? ? ? []|]. cbn. assert (B := max_in Hs Hm). lra.
  - destruct (CH Hs (HX x (or_introl eq_refl)) Hm) as (a & E & Ha & B). destruct (q_step Hs Ha) as (m' & Hm' & Q). assert (Hle := proj2 Hm a Ha).
    assert (PM : 0 <= M). { assert (Z := HM Hs Ha). assert (Z' := Rabs_pos (q s a)). lra. }
    assert (PP : 0 <= gamma ^ length xs) by (apply pow_le; lra).
    assert (PG : 0 <= geometric gamma (length xs)). { clear -Hg. induction (length xs) as [|n IH]; cbn [geometric]; [lra|]. assert (0 <= gamma * geometric gamma n) by (apply Rmult_le_pos; lra). lra. }
    assert (PL : 0 <= L) by lra.
    cbn [play]. rewrite E. cbn [bind]. unfold reward, ends, next in *. destruct (dyn s a) as [[s' r] d] eqn:DY. cbn [fst snd] in *. destruct d.
    + exists [(s, a, r, true)]. split; [reflexivity|]. split; [replace r with (reward dyn s a) by (unfold reward; now rewrite DY); constructor; unfold ends; now rewrite DY|]. split.
      * intros s0 a0 r0 d0 [I|[]]. injection I as <- <- <- <-. split; auto. exists x. split; [now left|auto].
      * unfold gain. cbn [map discounted fst snd length geometric pow]. assert (0 <= gamma * gamma ^ length xs * M) by (apply Rmult_le_pos; [apply Rmult_le_pos; lra|lra]). assert (0 <= L * (gamma * geometric gamma (length xs))) by (apply Rmult_le_pos; [lra|apply Rmult_le_pos; lra]). lra.
    + assert (Hs' : (s' < nS)%nat). { assert (Z := CL Hs Ha). unfold next in Z. rewrite DY in Z. exact Z. }
      destruct (IH s' m' Hs' (fun x I => HX x (or_intror I)) Hm') as (h & P & EP & AC & G). rewrite P. cbn [bind]. exists ((s, a, r, false) :: h). split; [reflexivity|]. split; [|split].
      * replace r with (reward dyn s a) by (unfold reward; now rewrite DY). constructor; [unfold ends; now rewrite DY|]. unfold next. rewrite DY. exact EP.
      * intros s0 a0 r0 d0 [I|I]; [injection I as <- <- <- <-; split; auto; exists x; split; [now left|auto]|]. destruct (AC _ _ _ _ I) as (H1 & y & I2 & C). split; auto. exists y. split; [now right|auto].
      * unfold gain in *. cbn [map discounted fst snd length geometric pow]. destruct G as [G1 G2]. apply (Rmult_le_compat_l gamma) in G1; [|lra]. apply (Rmult_le_compat_l gamma) in G2; [|lra]. lra.
Qed.
End Loss.

(** What the modes of the policies do. *)
Variable f : qfun nat R.
Variable g : R -> R.
Hypothesis Hrise : rising g.
Lemma call_qval : forall s a, width nA f -> (a < nA)%nat -> q_call_a (Some nA) (one_hot nA) g f s a = Ok (g (qval nA f s a)).
Proof.
  intros s a W Ha. unfold q_call_a. change (function_type1 (Some nA) dot f [s] [one_hot nA a]) with (eval1 (Some nA) f [s] [one_hot nA a]).
  rewrite (@eval1_ok nat nA) by (auto; intros x [<-|[]]; apply one_hot_length). cbn [bind combine map fst snd]. now rewrite (@qat_one_hot nat nA) by auto.
Qed.
Lemma close_qval : forall D s a, close_to nS nA g f q D -> (s < nS)%nat -> (a < nA)%nat -> Rabs (g (qval nA f s a) - q s a) <= D.
Proof. intros D s a [W H] Hs Ha. destruct (H s a Hs Ha) as (x & X1 & X2). rewrite call_qval in X1 by auto. injection X1 as <-. exact X2. Qed.
Lemma rising_le : forall x y, x <= y -> g x <= g y.
Proof. intros x y [H| ->]; [left; now apply Hrise|lra]. Qed.
Lemma greedy_loss : forall D s a m, close_to nS nA g f q D -> (s < nS)%nat -> is_maximum nA (q s) m -> PolicySpec.optimal nA (qval nA f s) a -> (a < nA)%nat /\ m - 2 * D <= q s a.
Proof.
  intros D s a m C Hs [(c & Hc & <-) _] [Ha H]. split; auto. specialize (H c Hc). apply rising_le in H. assert (Z1 := close_qval C Hs Ha). assert (Z2 := close_qval C Hs Hc).
  unfold Rabs in Z1, Z2. destruct (Rcase_abs _) in Z1; destruct (Rcase_abs _) in Z2; lra.
Qed.
Lemma mode_greedy : forall policy tau s gs, width nA f -> value_based nA f policy -> 0 < tau -> noise nA gs -> exists a, mode_agent nA tau policy s gs = Ok a /\ PolicySpec.optimal nA (qval nA f s) a.
Proof.
  intros policy tau s gs W V Ht N. destruct V as [eps He|t Ht0].
  - destruct (C72_epsilon_greedy nat nA eps tau f s gs HA W He Ht N) as (z & a & b & Z & A & O & _). exists a. unfold mode_agent. rewrite Z. cbn [bind]. auto.
  - destruct (C72_boltzmann nat nA t tau f s gs HA W Ht0 Ht N) as (z & a & b & Z & A & O & _). exists a. unfold mode_agent. rewrite Z. cbn [bind]. auto.
Qed.
Lemma mean_greedy : forall policy s gs, width nA f -> value_based nA f policy -> noise nA gs -> exists a, mean_agent nA policy s gs = Ok a /\ PolicySpec.optimal nA (qval nA f s) a.
Proof.
  intros policy s gs W V N. destruct V as [eps He|t Ht0].
  - destruct (C72_epsilon_greedy nat nA eps 1 f s gs HA W He ltac:(lra) N) as (z & a & b & Z & _ & _ & B & O). exists b. unfold mean_agent. rewrite Z. cbn [bind]. auto.
  - destruct (C72_boltzmann nat nA t 1 f s gs HA W Ht0 ltac:(lra) N) as (z & a & b & Z & _ & _ & B & O). exists b. unfold mean_agent. rewrite Z. cbn [bind]. auto.
Qed.


(** There is a smallest loss of actions that are not optimal. *)
Lemma row_gap : forall s m k, is_maximum nA (q s) m -> (k <= nA)%nat -> exists d, 0 < d /\ forall a, (a < k)%nat -> m - d < q s a -> q s a = m.
Proof.
  intros s m k Hm. induction k as [|k IH]; intros Hk; [exists 1; split; [lra|]; intros; lia|]. destruct IH as (d & Hd & H); [lia|]. assert (Z := proj2 Hm k ltac:(lia)). destruct Z as [Z|Z].
  - exists (Rmin d (m - q s k)). split; [apply Rmin_glb_lt; lra|]. intros a Ha B. assert (M1 := Rmin_l d (m - q s k)). assert (M2 := Rmin_r d (m - q s k)). destruct (Nat.eq_dec a k) as [-> | NE]; [lra|]. apply H; [lia|lra].
  - exists d. split; auto. intros a Ha B. destruct (Nat.eq_dec a k) as [-> | NE]; auto. apply H; [lia|lra].
Qed.
Lemma all_gap : exists d, 0 < d /\ forall s a m, (s < nS)%nat -> (a < nA)%nat -> is_maximum nA (q s) m -> m - d < q s a -> q s a = m.
Proof.
  assert (X : forall k, exists d, 0 < d /\ forall s a m, (s < k)%nat -> (a < nA)%nat -> is_maximum nA (q s) m -> m - d < q s a -> q s a = m).
  { induction k as [|k (d & Hd & H)]; [exists 1; split; [lra|]; intros; lia|]. destruct (max_exists (q k)) as [m Hm]. destruct (@row_gap k m nA Hm (le_n _)) as (e & He & H').
    exists (Rmin d e). split; [now apply Rmin_glb_lt|]. intros s a m' Hs Ha Hm' B. assert (M1 := Rmin_l d e). assert (M2 := Rmin_r d e). destruct (Nat.eq_dec s k) as [-> | NE].
    - rewrite (max_unique Hm' Hm) in *. apply H'; auto. lra.
    - apply (H s a m'); auto; [lia|lra]. }
  exact (X nS).
Qed.
End Greedy.
