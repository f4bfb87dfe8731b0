(** Means over episodes: linearity, derivatives with respect to the parameters of the policy. *)
From Coq Require Import List Lia Bool Arith Reals Lra.
From Verif Require Import PyCommon CommonProofs UtilsModel UtilsSpec UtilsProofs2 UtilsProofs3 DistModel DistSpec DistProofs LossModel LossSpec LossProofs QModel TDModel TDSpec TDProofs CoreModel TracerModel WorkerModel PolicyModel PolicySpec PolicyProofs PolicyProofs4 CompProofs2 CompProofs4 LearnModel PgModel PgSpec.
Import ListNotations.
Set Implicit Arguments.
Local Open Scope R_scope.

Lemma legal_cons : forall nA s a r es, (a < nA)%nat -> legal_actions nA es -> legal_actions nA ((s, a, r) :: es).
Proof. intros nA s a r es Ha H s' a' r' [E|I]; [inversion E; subst; auto|eapply H; eauto]. Qed.
Lemma legal_nil : forall nA, legal_actions nA []. Proof. intros nA s a r []. Qed.
Lemma legal_tail : forall nA x es, legal_actions nA (x :: es) -> legal_actions nA es.
Proof. intros nA x es H s a r I. eapply H. right. exact I. Qed.

Section Means.
Variables nA N : nat.
Variable net : list R -> nat -> list R.
Variable P : list R.
Variable dyn : nat -> nat -> nat -> nat * R * bool.
Notation mean_from := (mean_from nA net P dyn).
Notation prob := (prob nA net).

Lemma mean_S : forall th T s f, mean_from th (S T) s f = expectation nA (prob th s) (fun a => total (map (fun w => nth w P 0 *
  (let '(s', r, e) := dyn w s a in if e then f [(s, a, r)] else mean_from th T s' (fun es => f ((s, a, r) :: es)))) (seq 0 (length P)))).
Proof. reflexivity. Qed.
Lemma expectation_ext_in : forall n p h h', (forall a, (a < n)%nat -> h a = h' a) -> expectation n p h = expectation n p h'.
Proof. intros n p h h' H. now apply expectation_ext. Qed.
Lemma mean_ext : forall th T s f g, (forall es, legal_actions nA es -> ((1 <= T)%nat -> es <> []) -> f es = g es) -> mean_from th T s f = mean_from th T s g.
Proof.
  intros th. induction T as [|T IH]; intros s f g H; [apply H; [apply legal_nil|lia]|]. rewrite !mean_S. apply expectation_ext_in. intros a Ha. apply total_ext. intros w _. f_equal. destruct (dyn w s a) as [[s' r] e]. destruct e.
  - apply H; [apply legal_cons; auto; apply legal_nil|discriminate].
  - apply IH. intros es L _. apply H; [now apply legal_cons|discriminate].
Qed.
Lemma mean_plus : forall th T s f g, mean_from th T s (fun es => f es + g es) = mean_from th T s f + mean_from th T s g.
Proof.
  intros th. induction T as [|T IH]; intros s f g; [reflexivity|]. rewrite !mean_S. unfold expectation. rewrite <- total_plus. apply total_ext. intros a _. rewrite <- Rmult_plus_distr_l. f_equal. rewrite <- total_plus. apply total_ext. intros w _. rewrite <- Rmult_plus_distr_l. f_equal. destruct (dyn w s a) as [[s' r] [|]]; [reflexivity|apply IH].
Qed.
Lemma mean_scal : forall th c T s f, mean_from th T s (fun es => c * f es) = c * mean_from th T s f.
Proof.
  intros th c. induction T as [|T IH]; intros s f; [reflexivity|]. rewrite !mean_S. unfold expectation. rewrite <- total_scal. apply total_ext. intros a _. rewrite <- Rmult_assoc, (Rmult_comm c), Rmult_assoc. f_equal. rewrite <- total_scal. apply total_ext. intros w _. rewrite <- Rmult_assoc, (Rmult_comm c), Rmult_assoc. f_equal. destruct (dyn w s a) as [[s' r] [|]]; [reflexivity|apply IH].
Qed.
Lemma mean_sum : forall th T s (A : Type) (l : list A) (f : A -> list visit -> R), mean_from th T s (fun es => total (map (fun i => f i es) l)) = total (map (fun i => mean_from th T s (f i)) l).
Proof.
  intros th T s A l f. induction l as [|x l IH].
  - cbn [map]. change (total []) with 0. rewrite (@mean_ext th T s (fun _ => 0) (fun es => 0 * 0)) by (intros; lra). rewrite (mean_scal th 0 T s (fun _ => 0)). lra.
  - cbn [map]. rewrite total_cons, <- IH, <- mean_plus. reflexivity.
Qed.

Variable score : list R -> nat -> nat -> nat -> R.
Hypothesis SM : smooth_policy nA N net score.
(** The derivative of the log-probability along a velocity. *)
Definition dlog (th : list R) (x : nat -> R) (s a : nat) : R := total (map (fun i => score th s a i * x i) (seq 0 N)).
Lemma prob_pos : forall th s a, length th = N -> (a < nA)%nat -> 0 < prob th s a.
Proof. intros th s a L Ha. unfold PgSpec.prob. apply boltzmann_pos; auto. destruct SM as (_ & H & _). auto. Qed.
Lemma prob_total : forall th s, length th = N -> total (map (prob th s) (seq 0 nA)) = 1.
Proof. intros th s L. unfold PgSpec.prob. destruct SM as (H1 & H2 & _). apply boltzmann_total; auto. Qed.
Lemma prob_deriv : forall c t x s a, velocity N c t x -> (a < nA)%nat -> derivable_pt_lim (fun u => prob (c u) s a) t (prob (c t) s a * dlog (c t) x s a).
Proof.
  intros c t x s a V Ha. pose proof V as [L _]. destruct SM as (_ & _ & H3). destruct (H3 s a Ha) as [D _]. specialize (D c t x V).
  apply (@derivable_pt_lim_same (fun u => exp (ln (prob (c u) s a)))). { intros u. apply exp_ln. now apply prob_pos. }
  replace (prob (c t) s a * dlog (c t) x s a) with (exp (ln (prob (c t) s a)) * dlog (c t) x s a) by (rewrite exp_ln; [reflexivity|now apply prob_pos]).
  apply (@derivable_pt_lim_comp (fun u => ln (prob (c u) s a)) exp t); [exact D|]. apply derivable_pt_lim_exp.
Qed.
(** The derivative of a mean over episodes: derivative of the quantity plus the quantity times the sum of the scores. *)
Lemma mean_deriv : forall c t x, velocity N c t x -> forall T s (f : R -> list visit -> R) f',
  (forall es, legal_actions nA es -> ((1 <= T)%nat -> es <> []) -> derivable_pt_lim (fun u => f u es) t (f' es)) ->
  derivable_pt_lim (fun u => mean_from (c u) T s (f u)) t (mean_from (c t) T s (fun es => f' es + f t es * step_sum (dlog (c t) x) es)).
Proof.
  intros c t x V. induction T as [|T IH]; intros s f f' D.
  - cbn. rewrite Rmult_0_r, Rplus_0_r. apply D; [apply legal_nil|lia].
  - rewrite mean_S.
    set (B := fun u w a => let '(s', r, e) := dyn w s a in if e then f u [(s, a, r)] else mean_from (c u) T s' (fun es => f u ((s, a, r) :: es))).
    set (B' := fun w a => let '(s', r, e) := dyn w s a in if e then f' [(s, a, r)] else mean_from (c t) T s' (fun es => f' ((s, a, r) :: es) + f t ((s, a, r) :: es) * step_sum (dlog (c t) x) es)).
    assert (DB : forall w a, (a < nA)%nat -> derivable_pt_lim (fun u => B u w a) t (B' w a)).
    { intros w a Ha. unfold B, B'. destruct (dyn w s a) as [[s' r] [|]].
      - apply D; [apply legal_cons; auto; apply legal_nil|discriminate].
      - apply (IH s' (fun u es => f u ((s, a, r) :: es)) (fun es => f' ((s, a, r) :: es))). intros es Le _. apply D; [now apply legal_cons|discriminate]. }
    apply (@derivable_pt_lim_same (fun u => total (map (fun a => prob (c u) s a * total (map (fun w => nth w P 0 * B u w a) (seq 0 (length P)))) (seq 0 nA)))); [reflexivity|].
    match goal with |- derivable_pt_lim _ _ ?r => replace r with (total (map (fun a => prob (c t) s a * dlog (c t) x s a * total (map (fun w => nth w P 0 * B t w a) (seq 0 (length P))) + prob (c t) s a * total (map (fun w => nth w P 0 * B' w a) (seq 0 (length P)))) (seq 0 nA))) end.
    + apply (@deriv_total nat (fun a u => prob (c u) s a * total (map (fun w => nth w P 0 * B u w a) (seq 0 (length P)))) (fun a _ => prob (c t) s a * dlog (c t) x s a * total (map (fun w => nth w P 0 * B t w a) (seq 0 (length P))) + prob (c t) s a * total (map (fun w => nth w P 0 * B' w a) (seq 0 (length P))))).
      intros a Ha. apply in_seq in Ha. apply (@derivable_pt_lim_mult (fun u => prob (c u) s a) (fun u => total (map (fun w => nth w P 0 * B u w a) (seq 0 (length P))))).
      * apply prob_deriv; auto. lia.
      * apply (@deriv_total nat (fun w u => nth w P 0 * B u w a) (fun w _ => nth w P 0 * B' w a)). intros w _. apply (@derivable_pt_lim_scal (fun u => B u w a)). apply DB. lia.
    + unfold expectation. apply total_ext. intros a Ha. apply in_seq in Ha. rewrite Rmult_assoc, <- Rmult_plus_distr_l. f_equal. rewrite <- total_scal, <- total_plus. apply total_ext. intros w _. unfold B, B'. destruct (dyn w s a) as [[s' r] [|]].
      * cbn [step_sum]. lra.
      * rewrite <- Rmult_assoc, (Rmult_comm (dlog _ _ _ _)), Rmult_assoc, <- Rmult_plus_distr_l, <- mean_scal, <- mean_plus. f_equal. apply mean_ext. intros es _ _. cbn [step_sum]. lra.
Qed.
(** The scores have mean 0. *)
Lemma mean_one : forall th T s, length th = N -> total P = 1 -> mean_from th T s (fun _ => 1) = 1.
Proof.
  intros th T s L TP. revert s. induction T as [|T IH]; intros s; [reflexivity|]. rewrite mean_S. rewrite (@expectation_ext_in nA _ _ (fun _ => 1)).
  - unfold expectation. rewrite (@total_ext _ _ (prob th s)) by (intros; lra). now apply prob_total.
  - intros a Ha. rewrite (@total_ext _ _ (fun w => nth w P 0)). { transitivity (total P); [|exact TP]. f_equal. symmetry. now apply list_seq. } intros w _. destruct (dyn w s a) as [[s' r] [|]]; [lra|]. rewrite IH. lra.
Qed.
Lemma const_velocity : forall th, length th = N -> velocity N (fun _ => th) 0 (fun _ => 0).
Proof. intros th L. split; auto. intros i _. apply derivable_pt_lim_const. Qed.
(** Moving along a straight line. *)
Definition line_of (th : list R) (x : nat -> R) (u : R) : list R := map (fun i => nth i th 0 + u * x i) (seq 0 N).
Lemma line_velocity : forall th x, velocity N (line_of th x) 0 x.
Proof.
  intros th x. unfold line_of. split; [intros; now rewrite map_length, seq_length|]. intros i Hi. apply (@derivable_pt_lim_same (fun u => nth i th 0 + u * x i)). { intros u. rewrite (@nth_map_any _ _ _ (seq 0 N) i 0 0%nat) by (rewrite seq_length; lia). now rewrite seq_nth by lia. }
  cut (derivable_pt_lim (fun u => nth i th 0 + u * x i) 0 (0 + (1 * x i + 0 * 0))). { replace (0 + (1 * x i + 0 * 0)) with (x i) by lra. auto. }
  apply (@derivable_pt_lim_plus (fun _ => nth i th 0) (fun u => u * x i)); [apply derivable_pt_lim_const|]. apply (@derivable_pt_lim_mult (fun u => u) (fun _ => x i)); [apply derivable_pt_lim_id|apply derivable_pt_lim_const].
Qed.
Lemma line_0 : forall th x, length th = N -> line_of th x 0 = th.
Proof. intros th x L. unfold line_of. transitivity (map (fun i => nth i th 0) (seq 0 N)); [apply map_ext; intros; lra|symmetry; now apply list_seq]. Qed.
Lemma mean_scores : forall th x T s, length th = N -> total P = 1 -> mean_from th T s (step_sum (dlog th x)) = 0.
Proof.
  intros th x T s L TP. pose proof (@mean_deriv (line_of th x) 0 x (line_velocity th x) T s (fun _ _ => 1) (fun _ => 0)) as D. cbv beta in D. rewrite line_0 in D by auto.
  assert (D1 : derivable_pt_lim (fun u => mean_from (line_of th x u) T s (fun _ => 1)) 0 (mean_from th T s (step_sum (dlog th x)))).
  { erewrite (@mean_ext th T s (step_sum (dlog th x))); [apply D|]; intros es; [intros _ _; apply derivable_pt_lim_const|intros; cbv beta; lra]. }
  eapply uniqueness_limite; [exact D1|]. apply (@derivable_pt_lim_same (fun _ => 1)); [|apply derivable_pt_lim_const]. intros u. symmetry. apply mean_one; auto. unfold line_of. now rewrite map_length, seq_length.
Qed.
Lemma dlog_mean : forall th x s, length th = N -> expectation nA (prob th s) (dlog th x s) = 0.
Proof.
  intros th x s L. assert (D : derivable_pt_lim (fun u => total (map (prob (line_of th x u) s) (seq 0 nA))) 0 (total (map (fun a => prob th s a * dlog th x s a) (seq 0 nA)))).
  { apply (@deriv_total nat (fun a u => prob (line_of th x u) s a) (fun a _ => prob th s a * dlog th x s a)). intros a Ha. apply in_seq in Ha. pose proof (@prob_deriv (line_of th x) 0 x s a (line_velocity th x)) as D. rewrite line_0 in D by auto. apply D. lia. }
  eapply uniqueness_limite; [exact D|]. apply (@derivable_pt_lim_same (fun _ => 1)); [|apply derivable_pt_lim_const]. intros u. symmetry. apply prob_total. unfold line_of. now rewrite map_length, seq_length.
Qed.
(** Rewards of the past do not matter: the return of the whole episode can be replaced by the discounted returns from the steps on. *)
Lemma reward_to_go : forall gamma th x, length th = N -> total P = 1 -> forall T s,
  mean_from th T s (fun es => discounted gamma es * step_sum (dlog th x) es) = mean_from th T s (return_sum gamma gamma (dlog th x)).
Proof.
  intros gamma th x L TP. induction T as [|T IH]; intros s; [cbn; lra|]. rewrite !mean_S. apply expectation_ext_in. intros a Ha. apply total_ext. intros w _. f_equal. destruct (dyn w s a) as [[s' r] [|]]; [cbn; lra|].
  cbn [discounted step_sum return_sum].
  rewrite (@mean_ext th T s' (fun es => (r + gamma * discounted gamma es) * (dlog th x s a + step_sum (dlog th x) es)) (fun es => (r + gamma * discounted gamma es) * dlog th x s a + (r * step_sum (dlog th x) es + gamma * (discounted gamma es * step_sum (dlog th x) es)))) by (intros; lra).
  rewrite !mean_plus. f_equal. rewrite !mean_scal, IH, mean_scores by auto. lra.
Qed.
End Means.
