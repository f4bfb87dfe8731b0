(** Proofs for DqnProps.v: a whole run. *)
From Coq Require Import List Bool Arith ZArith Lia Reals Lra.
From Verif Require Import PyCommon CommonProofs UtilsModel UtilsSpec UtilsProofs2 UtilsProofs3 WrappersProofs DistModel DistSpec DistProofs DistProofs2 DistProofs3 LossModel LossSpec LossProofs QModel QProofs QProps TDModel TDSpec CoreModel CoreSpec ReplayModel ReplaySpec TracerModel TracerSpec WorkerModel PipeModel PipeSpec PipeProofs3 PipeProps LearnModel LearnSpec LearnProofs LearnProofs2 LearnProofs3 LearnProofs4 LearnProofs5 LearnProofs6 LearnProofs7 LearnProps DqnModel DqnSpec DqnProofs.
Import ListNotations.
Set Implicit Arguments.
Local Open Scope R_scope.

Section Whole.
Variables nS nA : nat.
Variable dyn : nat -> nat -> nat * R * bool.
Variable gamma : R.
Variable net : list R -> qfun nat R.
Variable target : list R -> list R -> TDModel.tbatch nat -> outcome (list R).
Variable val : valuation.
Variable loss : list R -> list R -> option (list R) -> outcome (option R).
Variable grads : list R -> list R -> fbatch nat -> list R.
Variable sub : nat -> nat -> bool.
Variables (lr cl D : R) (k : nat).
Hypothesis SET : setting nS nA dyn gamma net target val loss grads lr 1 cl D k.
Variable q : nat -> nat -> R.
Hypothesis BE : bellman nS nA dyn gamma val q.
Variable G : Type.
Variable draw : G -> nat -> nat -> list nat * G.
Hypothesis Hd : draws_distinct draw.
Variables (warm : nat) (tau : R).
Hypothesis Hk : (k <= warm)%nat.
Hypothesis Ht : 0 <= tau <= 1.
Notation stored := (ReplayModel.tbatch (single nat nat)).
Notation dqn_run := (dqn_run nA net target loss grads sub draw 1 gamma warm k tau).
Notation calls := (call_ops nA tau).

Definition batch_ok (b : list stored) : Prop := length b = k /\ NoDup (map (@ids _) b) /\ Forall (fun x => exists y j, x = mkTB [y] [Z.of_nat j] /\ row_ok nS nA dyn gamma y) b.
Lemma batch_rows : forall b, batch_ok b -> length (sampled_rows b) = k /\ forall y, In y (sampled_rows b) -> row_ok nS nA dyn gamma y.
Proof.
  intros b (L & _ & F). rewrite <- L. clear L. induction F as [|x b (y & j & -> & H) F [IH1 IH2]]; cbn; [split; auto; intros ? []|]. split; [f_equal; exact IH1|]. intros z [<-|I]; auto.
Qed.
Lemma calls_ok : forall log, (forall b, In (Some b) log -> batch_ok b) -> forall o, In o (flat_map calls log) -> op_ok nS nA dyn gamma lr 1 k o.
Proof.
  destruct SET as (HA & CL & Hg & TB & AL & PL & GR & Hlr & Hwl & Hlw & HB & HD). intros log OK o I. apply in_flat_map in I. destruct I as ([b|] & I & H).
  - destruct H as [<-|[<-|[]]]; [|exact Ht]. destruct (batch_rows (OK b I)) as [L RR]. destruct (@rows_genuine nS nA dyn gamma (sampled_rows b)) as [GE WW]; auto; [destruct (sampled_rows b); [cbn in L; lia|discriminate]|].
    eexists. split; [exact GE|]. split; [|rewrite map_length; lia]. intros w Iw. rewrite (WW w Iw). rewrite <- wclip, clip_in by lra. lra.
  - destruct H as [<-|[]]. exact Ht.
Qed.
Lemma sampled_visits : forall b x j, In (mkTB [x] [j]) b -> visits nA (YUpdate (batch_of nA (sampled_rows b))) (x_s x) (x_a x).
Proof.
  intros b x j I. assert (X : In x (sampled_rows b)) by (apply in_flat_map; eexists; split; [exact I|now left]). apply In_nth_error in X. destruct X as [i X]. exists i. unfold batch_of. cbn [fb_S fb_A]. split; now rewrite (map_nth_error _ _ _ X).
Qed.
Lemma part_round : forall y t part, (1 <= nS)%nat -> y_targ y = Some t -> (forall b, In (Some b) part -> batch_ok b) -> (forall s a, (s < nS)%nat -> (a < nA)%nat -> samples part s a) ->
  one_round nS nA dyn gamma lr 1 tau k y (flat_map calls part).
Proof.
  intros y t part HS YT OK C. pose proof SET as (HA & _). split; [now apply calls_ok|]. rewrite YT. destruct part as [|b0 part'] using rev_ind; [destruct (C 0%nat 0%nat) as (b & _ & _ & [] & _); lia|]. clear IHpart'.
  rewrite flat_map_app. cbn [flat_map]. rewrite app_nil_r. exists (flat_map calls part' ++ match b0 with Some b => [YUpdate (batch_of nA (sampled_rows b))] | None => [] end), tau, []. split; [rewrite <- app_assoc; f_equal; now destruct b0|]. split; [|lra].
  intros s a Hs Ha. destruct (C s a Hs Ha) as (b & x & j & I & Ib & <- & <-). exists (YUpdate (batch_of nA (sampled_rows b))). split; [|now apply (@sampled_visits b x j)].
  apply in_or_app. apply in_app_or in I. destruct I as [I|[->|[]]]; [left|right; now left]. apply in_flat_map. exists (Some b). split; auto. now left.
Qed.

Lemma dqn_whole : forall y t cap h g es, sgd_learner lr sub y -> y_targ y = Some t -> within nS nA net (q_params y) q D -> within nS nA net (targ_params y) q D -> follows nS nA dyn es ->
  exists y' p' log, dqn_run y (mkPipe (nstep_reset nat nat) (simple_init h cap g)) es = (y', p', Ok log) /\
    (forall b, In (Some b) log -> batch_ok b) /\ within nS nA net (q_params y') q D /\ within nS nA net (targ_params y') q D /\
    ((1 <= nS)%nat -> 0 < tau -> forall N, sweeps nS nA N log -> within nS nA net (q_params y') q ((1 - tau * (lr * 1 * cl / INR k * (1 - gamma))) ^ N * D) /\ within nS nA net (targ_params y') q ((1 - tau * (lr * 1 * cl / INR k * (1 - gamma))) ^ N * D)).
Proof.
  intros y t cap h g es SG YT W1 W2 F. pose proof (beta_le SET) as [Hb0 Hb]. pose proof SET as (HA & CL & Hg & TB & AL & PL & GR & Hlr & Hwl & Hlw & HB & HD). pose proof (table_tabular TB) as T. destruct (algorithm_ok HA T AL) as [ST NX].
  assert (V : played_valid es). { clear - F. induction es as [|e es IH]; intros x I; [destruct I|]. destruct F as (F1 & F2 & F3 & F4 & F5 & F6 & F7 & F8 & F9 & F10). destruct I as [<-|I]; [|now apply IH]. red. rewrite F4. repeat split; auto; lra. }
  destruct (@C106_script nat nat G draw 1 gamma warm k cap h g es ltac:(lia) Hg Hd ltac:(lia) V) as (p' & bs & E & H).
  destruct (@dqn_run_yrun nA net target loss grads sub G draw 1 gamma warm k tau es _ p' bs E) as (log & K & RUN).
  assert (OK : forall b, In (Some b) log -> batch_ok b).
  { intros b I. apply in_keep in I. rewrite K in I. destruct (H b I) as (H1 & H2 & H3). split; auto. split; auto. eapply Forall_impl; [|exact H3]. intros x (z & j & -> & OO). exists z, j. split; auto. eapply episode_row; eauto. }
  pose proof (calls_ok log OK) as OPS. pose proof (proj2 (@good_within nS nA net q lr sub y D T) (conj SG (conj W1 W2))) as GD.
  destruct (@never_worse nS nA HA net T dyn CL gamma Hg target val ST NX loss grads sub D cl lr 1 k PL GR Hlr Hwl q BE (flat_map calls log) y D) as (y' & R & G' & _); auto; [lra|rewrite YT; discriminate|].
  exists y', p', log. split; [now apply RUN|]. split; auto. apply (@good_within _ _ _ _ _ _ _ _ T) in G'. split; [tauto|]. split; [tauto|].
  intros HS Ht0 N (parts & rest & EL & LN & SW). subst log. rewrite flat_map_app, flat_map_parts in R. rewrite yrun_app in R.
  destruct (@rounds_good nS nA HA net T dyn CL gamma Hg target val ST NX loss grads sub D cl lr 1 k PL GR Hlr Hwl q BE tau ltac:(lra) Hb (map (flat_map calls) parts) y D) as (y1 & R1 & G1 & K1); auto; [lra| |].
  { intros os I. apply in_map_iff in I. destruct I as (part & <- & I). apply (@part_round y t part HS YT); auto. intros b Ib. apply OK. apply in_or_app. left. apply in_concat. eauto. }
  rewrite R1 in R. rewrite map_length, LN in G1. set (D' := rate gamma cl lr 1 k tau ^ N * D) in *.
  assert (K0 : 0 <= rate gamma cl lr 1 k tau <= 1). { unfold rate. assert (X : 0 <= beta cl lr 1 k * (1 - gamma) <= 1) by (split; [apply Rmult_le_pos; lra|nra]). assert (0 <= tau * (beta cl lr 1 k * (1 - gamma)) <= 1) by (split; [apply Rmult_le_pos; lra|nra]). lra. }
  assert (HD' : 0 <= D' <= D). { unfold D'. assert (0 <= rate gamma cl lr 1 k tau ^ N <= 1). { revert K0. clear. generalize (rate gamma cl lr 1 k tau). intros r K0. split; [apply pow_le; lra|]. rewrite <- (pow1 N). apply pow_incr. exact K0. } split; [apply Rmult_le_pos; lra|]. rewrite <- (Rmult_1_l D) at 2. apply Rmult_le_compat_r; lra. }
  destruct (@never_worse nS nA HA net T dyn CL gamma Hg target val ST NX loss grads sub D cl lr 1 k PL GR Hlr Hwl q BE (flat_map calls rest) y1 D') as (y2 & R2 & G2 & _); auto.
  - intros o I. apply OPS. rewrite flat_map_app. apply in_or_app. now right.
  - intros X. red in K1. rewrite YT in K1. destruct K1 as [K1 _]. specialize (K1 X). discriminate.
  - rewrite R2 in R. injection R as ->. apply (@good_within _ _ _ _ _ _ _ _ T) in G2. destruct G2 as (_ & G2). exact G2.
Qed.
End Whole.
