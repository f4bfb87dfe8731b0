(** First-order behaviour of the REINFORCE loop. *)
From Coq Require Import List Lia Bool Arith Reals Lra.
From Verif Require Import PyCommon CommonProofs UtilsModel UtilsSpec UtilsProofs2 UtilsProofs3 DistModel DistSpec DistProofs LossModel LossSpec LossProofs QModel TDModel TDSpec TDProofs CoreModel TracerModel WorkerModel PolicyModel PolicySpec PolicyProofs PolicyProofs4 LearnModel PgModel PgSpec PgProofs PgProofs2.
Import ListNotations.
Set Implicit Arguments.
Local Open Scope R_scope.

Lemma deriv_times_id : forall f, continuity_pt f 0 -> derivable_pt_lim (fun u => u * f u) 0 (f 0).
Proof.
  intros f C e He. destruct (C e He) as (d & Hd & H). exists (mkposreal d Hd). intros h Hh Hl. cbn in Hl. replace (((0 + h) * f (0 + h) - 0 * f 0) / h - f 0) with (f (0 + h) - f 0) by (field; auto). apply (H (0 + h)). split.
  - split; [exact I|lra].
  - cbn. unfold R_dist. replace (0 + h - 0) with h by lra. exact Hl.
Qed.
Lemma derivable_continuous_at : forall f t l, derivable_pt_lim f t l -> continuity_pt f t.
Proof. intros f t l D. apply derivable_continuous_pt. exists l. exact D. Qed.
Lemma positive_slope : forall f l, derivable_pt_lim f 0 l -> 0 < l -> exists d, 0 < d /\ forall u, 0 < u < d -> f 0 < f u.
Proof.
  intros f l D Hl. destruct (D l Hl) as [[d Hd] H]. exists d. split; auto. intros u Hu. specialize (H u ltac:(lra)). cbn in H. rewrite Rabs_pos_eq in H by lra. specialize (H ltac:(lra)). rewrite Rplus_0_l in H. apply Rabs_def2 in H. destruct H as [_ H]. assert (Q : 0 < (f u - f 0) / u) by lra.
  assert (X : (f u - f 0) / u * u = f u - f 0) by (field; lra). assert (0 < (f u - f 0) / u * u) by (apply Rmult_lt_0_compat; lra). lra.
Qed.
Lemma negative_slope : forall f l, derivable_pt_lim f 0 l -> l < 0 -> exists d, 0 < d /\ forall u, 0 < u < d -> f u < f 0.
Proof.
  intros f l D Hl. destruct (@positive_slope (fun u => - f u) (- l)) as (d & Hd & H); [now apply derivable_pt_lim_opp|lra|]. exists d. split; auto. intros u Hu. specialize (H u Hu). cbv beta in H. lra.
Qed.

Lemma return_sum_ext : forall g gamma h h' es, (forall s a r, In (s, a, r) es -> h s a = h' s a) -> return_sum g gamma h es = return_sum g gamma h' es.
Proof.
  intros g gamma h h' es. induction es as [|[[s a] r] es IH]; intros H; [reflexivity|]. cbn [return_sum]. rewrite (H s a r) by now left. f_equal. f_equal. apply IH. intros s' a' r' I. apply (H s' a' r'). now right.
Qed.
Lemma return_sum_linear : forall g gamma N (sc : nat -> nat -> nat -> R) (x : nat -> R) es,
  return_sum g gamma (fun s a => total (map (fun i => sc s a i * x i) (seq 0 N))) es = total (map (fun i => return_sum g gamma (fun s a => sc s a i) es * x i) (seq 0 N)).
Proof.
  intros g gamma N sc x. induction es as [|[[s a] r] es IH].
  - cbn [return_sum]. rewrite (@total_ext _ _ (fun _ => 0)) by (intros; lra). rewrite total_const. lra.
  - cbn [return_sum]. rewrite IH. rewrite <- !total_scal, <- total_plus. apply total_ext. intros i _. lra.
Qed.

Section First.
Variables nA N : nat.
Variable net : list R -> nat -> list R.
Variable score : list R -> nat -> nat -> nat -> R.
Hypothesis SM : smooth_policy nA N net score.
Variable gamma : R.
Variable th : list R.
Hypothesis L : length th = N.

(** How an episode moves the parameters, to first order in the learning rate. *)
Lemma ascend_first : forall es, legal_actions nA es -> velocity N (fun lr => ascend N score lr gamma th es) 0 (fun i => return_sum 1 gamma (fun s a => score th s a i) es) /\ ascend N score 0 gamma th es = th.
Proof.
  induction es as [|[[s a] r] es IH]; intros LA.
  - split; [|reflexivity]. split; [intros; exact L|]. intros i Hi. cbn [ascend return_sum]. apply (derivable_pt_lim_const (nth i th 0) 0).
  - destruct (IH (legal_tail LA)) as [V E]. assert (Ha := LA s a r ltac:(now left)). split.
    + split. { intros u. cbn [ascend]. now rewrite map_length, seq_length. } intros i Hi.
      apply (@derivable_pt_lim_same (fun lr => nth i (ascend N score lr gamma th es) 0 + discounted gamma ((s, a, r) :: es) * (lr * score (ascend N score lr gamma th es) s a i))).
      { intros u. cbn [ascend]. rewrite (@nth_map_any _ _ _ (seq 0 N) i 0 0%nat) by (rewrite seq_length; lia). rewrite seq_nth by lia. cbn [Nat.add]. f_equal. rewrite <- !Rmult_assoc. f_equal. apply Rmult_comm. }
      cbn [return_sum]. rewrite Rmult_1_l, Rplus_comm. apply (@derivable_pt_lim_plus (fun lr => nth i (ascend N score lr gamma th es) 0) (fun lr => discounted gamma ((s, a, r) :: es) * (lr * score (ascend N score lr gamma th es) s a i))); [now apply V|].
      apply (@derivable_pt_lim_scal (fun lr => lr * score (ascend N score lr gamma th es) s a i)). destruct SM as (_ & _ & H3). destruct (H3 s a Ha) as [_ C]. pose proof (@deriv_times_id (fun lr => score (ascend N score lr gamma th es) s a i) (C _ _ _ i Hi V)) as X. cbv beta in X. rewrite E in X. exact X.
    + cbn [ascend]. rewrite E. transitivity (map (fun i => nth i th 0) (seq 0 N)); [apply map_ext; intros; lra|symmetry; now apply list_seq].
Qed.

Variable P : list R.
Variable dyn : nat -> nat -> nat -> nat * R * bool.
Hypothesis TP : total P = 1.
Variable rho : list R.
Notation mean_from := (mean_from nA net P dyn).
Notation mean_episode := (mean_episode nA net P dyn rho).
Variable T : nat.
Hypothesis HT : (1 <= T)%nat.
Notation J := (expected_return nA net P dyn gamma rho T).

Lemma episode_ext : forall f g, (forall es, legal_actions nA es -> es <> [] -> f es = g es) -> mean_episode th T f = mean_episode th T g.
Proof. intros f g H. unfold PgSpec.mean_episode. apply total_ext. intros s _. f_equal. apply mean_ext. intros es LA NE. apply H; auto. Qed.
Lemma episode_scal : forall c f, mean_episode th T (fun es => c * f es) = c * mean_episode th T f.
Proof. intros c f. unfold PgSpec.mean_episode. rewrite <- total_scal. apply total_ext. intros s _. rewrite mean_scal. lra. Qed.
Lemma episode_sum : forall (A : Type) (l : list A) (f : A -> list visit -> R), mean_episode th T (fun es => total (map (fun i => f i es) l)) = total (map (fun i => mean_episode th T (f i)) l).
Proof.
  intros A l f. unfold PgSpec.mean_episode. induction l as [|x l IH].
  - cbn [map]. change (total []) with 0. rewrite (@total_ext _ _ (fun s => 0)). { rewrite total_const. lra. } intros s _. pose proof (@mean_sum nA net P dyn th T s A [] f) as Z. cbn [map] in Z. change (total []) with 0 in Z. rewrite Z. lra.
  - cbn [map]. rewrite total_cons, <- IH, <- total_plus. apply total_ext. intros s _. rewrite <- Rmult_plus_distr_l, <- mean_plus. reflexivity.
Qed.
(** The derivative of the expected return along a curve. *)
Lemma return_deriv : forall c t x, velocity N c t x -> derivable_pt_lim (fun u => J (c u)) t (total (map (fun i => PgSpec.mean_episode nA net P dyn rho (c t) T (return_sum gamma gamma (fun s a => score (c t) s a i)) * x i) (seq 0 N))).
Proof.
  intros c t x V. unfold expected_return.
  replace (total (map (fun i => PgSpec.mean_episode nA net P dyn rho (c t) T (return_sum gamma gamma (fun s a => score (c t) s a i)) * x i) (seq 0 N))) with (PgSpec.mean_episode nA net P dyn rho (c t) T (return_sum gamma gamma (dlog N score (c t) x))).
  - unfold PgSpec.mean_episode. apply (@deriv_total nat (fun s u => nth s rho 0 * mean_from (c u) T s (discounted gamma)) (fun s _ => nth s rho 0 * mean_from (c t) T s (return_sum gamma gamma (dlog N score (c t) x)))). intros s _. apply (@derivable_pt_lim_scal (fun u => mean_from (c u) T s (discounted gamma))).
    pose proof (@mean_deriv nA N net P dyn score SM c t x V T s (fun _ => discounted gamma) (fun _ => 0)) as D. cbv beta in D. rewrite <- (@reward_to_go nA N net P dyn score SM gamma (c t) x (proj1 V t) TP T s). erewrite mean_ext; [apply D|].
    + intros es _ _. apply derivable_pt_lim_const.
    + intros es _ _. cbv beta. lra.
  - unfold PgSpec.mean_episode. rewrite (@total_ext _ (fun s => nth s rho 0 * mean_from (c t) T s (return_sum gamma gamma (dlog N score (c t) x))) (fun s => total (map (fun i => nth s rho 0 * mean_from (c t) T s (return_sum gamma gamma (fun s a => score (c t) s a i)) * x i) (seq 0 N)))).
    + generalize (seq 0 N) as k. intros k. generalize (seq 0 (length rho)) as m. intros m. induction m as [|s m IH]; cbn [map].
      * rewrite (@total_ext _ _ (fun _ => 0)) by (intros; cbn; lra). rewrite total_const. cbn. lra.
      * rewrite total_cons, IH, <- total_plus. apply total_ext. intros i _. rewrite total_cons. lra.
    + intros s _. rewrite (@mean_ext nA net P dyn (c t) T s _ (fun es => total (map (fun i => return_sum gamma gamma (fun s a => score (c t) s a i) es * x i) (seq 0 N)))) by (intros es _ _; unfold dlog; apply return_sum_linear).
      rewrite mean_sum, <- total_scal. apply total_ext. intros i _. rewrite (@mean_ext nA net P dyn (c t) T s _ (fun es => x i * return_sum gamma gamma (fun s a => score (c t) s a i) es)) by (intros; lra). rewrite mean_scal. lra.
Qed.
Definition true_gradient (i : nat) : R := mean_episode th T (return_sum gamma gamma (fun s a => score th s a i)).
Definition reinforce_direction (i : nat) : R := mean_episode th T (return_sum 1 gamma (fun s a => score th s a i)).
Lemma return_gradient : gradient J th (map true_gradient (seq 0 N)).
Proof.
  split; [now rewrite map_length, seq_length|]. intros i Hi. rewrite L in Hi. pose proof (@return_deriv _ _ _ (@coordinate_velocity N th i L Hi)) as D. cbv beta in D. rewrite (@coordinate_same N th i L Hi) in D. rewrite (@pick N (fun i => mean_episode th T (return_sum gamma gamma (fun s a => score th s a i))) i Hi) in D.
  rewrite (@nth_map_any _ _ _ (seq 0 N) i 0 0%nat) by (rewrite seq_length; lia). rewrite seq_nth by lia. exact D.
Qed.
(** The derivative of a mean over the episodes of a fixed policy. *)
Lemma fixed_deriv : forall (f : R -> list visit -> R) f', (forall es, legal_actions nA es -> es <> [] -> derivable_pt_lim (fun u => f u es) 0 (f' es)) -> derivable_pt_lim (fun u => mean_episode th T (f u)) 0 (mean_episode th T f').
Proof.
  intros f f' D. unfold PgSpec.mean_episode. apply (@deriv_total nat (fun s u => nth s rho 0 * mean_from th T s (f u)) (fun s _ => nth s rho 0 * mean_from th T s f')). intros s _. apply (@derivable_pt_lim_scal (fun u => mean_from th T s (f u))).
  pose proof (@mean_deriv nA N net P dyn score SM (fun _ => th) 0 (fun _ => 0) (@const_velocity N th L) T s f f') as X. erewrite mean_ext; [apply X|].
  - intros es LA NE. apply D; auto.
  - intros es _ _. cbv beta. assert (Z : forall es, step_sum (dlog N score th (fun _ => 0)) es = 0). { induction es0 as [|[[s0 a0] r0] es0 IH]; [reflexivity|]. cbn [step_sum]. rewrite IH. unfold dlog. rewrite (@total_ext _ _ (fun _ => 0)) by (intros; lra). rewrite total_const. lra. } rewrite Z. lra.
Qed.
Lemma params_deriv : forall after, (forall lr es, es <> [] -> legal_actions nA es -> after lr es = ascend N score lr gamma th es) -> forall i, (i < N)%nat -> derivable_pt_lim (fun lr => mean_episode th T (fun es => nth i (after lr es) 0)) 0 (reinforce_direction i).
Proof.
  intros after HA i Hi. apply (@derivable_pt_lim_same (fun lr => mean_episode th T (fun es => nth i (ascend N score lr gamma th es) 0))).
  - intros lr. apply episode_ext. intros es LA NE. now rewrite HA.
  - apply fixed_deriv. intros es LA _. now apply ascend_first.
Qed.
Lemma performance_deriv : forall after, (forall lr es, es <> [] -> legal_actions nA es -> after lr es = ascend N score lr gamma th es) ->
  derivable_pt_lim (fun lr => mean_episode th T (fun es => J (after lr es))) 0 (total (map (fun i => true_gradient i * reinforce_direction i) (seq 0 N))).
Proof.
  intros after HA. apply (@derivable_pt_lim_same (fun lr => mean_episode th T (fun es => J (ascend N score lr gamma th es)))). { intros lr. apply episode_ext. intros es LA NE. now rewrite HA. }
  replace (total (map (fun i => true_gradient i * reinforce_direction i) (seq 0 N))) with (mean_episode th T (fun es => total (map (fun i => true_gradient i * return_sum 1 gamma (fun s a => score th s a i) es) (seq 0 N)))).
  - apply fixed_deriv. intros es LA _. destruct (ascend_first LA) as [V E]. pose proof (@return_deriv _ _ _ V) as D. cbv beta in D. rewrite E in D. exact D.
  - rewrite episode_sum. apply total_ext. intros i _. now rewrite episode_scal.
Qed.
Lemma performance_0 : forall after, total rho = 1 -> (forall lr es, es <> [] -> legal_actions nA es -> after lr es = ascend N score lr gamma th es) -> mean_episode th T (fun es => J (after 0 es)) = J th.
Proof.
  intros after TR HA. rewrite (@episode_ext _ (fun es => J th * 1)). 2:{ intros es LA NE. rewrite HA by auto. rewrite (proj2 (ascend_first LA)). lra. }
  rewrite episode_scal. unfold PgSpec.mean_episode at 1. rewrite (@total_ext _ _ (fun s => nth s rho 0)) by (intros s _; rewrite (@mean_one nA N net P dyn score SM th T s L TP); lra). rewrite <- (@list_seq rho (length rho) eq_refl), TR. lra.
Qed.
(** No parameter is used at two different times. *)
Lemma layered_direction : forall depth d, layered P dyn rho depth -> (forall s a i, (a < nA)%nat -> score th s a i <> 0 -> depth s = d i) -> forall i, true_gradient i = gamma ^ d i * reinforce_direction i.
Proof.
  intros depth d [D0 D1] HD i.
  assert (M : forall k s, gamma ^ depth s * mean_from th k s (return_sum gamma gamma (fun s a => score th s a i)) = gamma ^ d i * mean_from th k s (return_sum 1 gamma (fun s a => score th s a i))).
  { induction k as [|k IH]; intros s; [cbn; lra|]. rewrite !mean_S. unfold expectation. rewrite <- !total_scal. apply total_ext. intros a Ha. apply in_seq in Ha. rewrite <- !(Rmult_assoc (gamma ^ _)), !(Rmult_comm (gamma ^ _) (PgSpec.prob _ _ _ _ _)), !Rmult_assoc. f_equal. rewrite <- !total_scal. apply total_ext. intros w _.
    rewrite <- !(Rmult_assoc (gamma ^ _)), !(Rmult_comm (gamma ^ _) (nth w P 0)), !Rmult_assoc.
    assert (SC : gamma ^ depth s * score th s a i = gamma ^ d i * score th s a i). { destruct (Req_dec (score th s a i) 0) as [->|NZ]; [lra|]. now rewrite (HD s a i ltac:(lia) NZ). }
    destruct (Req_dec (nth w P 0) 0) as [->|NP]; [lra|]. f_equal. destruct (dyn w s a) as [[s' r] e] eqn:DY. destruct e.
    - cbn [return_sum]. rewrite !Rmult_0_r, !Rplus_0_r, <- !Rmult_assoc, !(Rmult_comm (gamma ^ _) (discounted _ _)), !Rmult_assoc. now f_equal.
    - cbn [return_sum]. rewrite !mean_plus. cbn [discounted].
      rewrite (@mean_ext nA net P dyn th k s' (fun es => (r + gamma * discounted gamma es) * score th s a i) (fun es => score th s a i * (r + gamma * discounted gamma es))) by (intros; lra). rewrite !mean_scal. specialize (IH s'). rewrite (D1 w s a s' r NP DY) in IH. cbn [pow] in IH.
      rewrite !Rmult_plus_distr_l, <- !(Rmult_assoc (gamma ^ _) (score th s a i)), SC. f_equal. rewrite Rmult_1_l, <- IH. lra. }
  unfold true_gradient, reinforce_direction, PgSpec.mean_episode. rewrite <- total_scal. apply total_ext. intros s _. destruct (Req_dec (nth s rho 0) 0) as [->|NR]; [lra|]. specialize (M T s). rewrite (D0 s NR) in M. cbn [pow] in M. rewrite Rmult_1_l in M. rewrite M. lra.
Qed.
End First.
