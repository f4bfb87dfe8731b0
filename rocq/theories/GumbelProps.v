(** Property C109: the action of a policy call has the probabilities of the policy. *)
From Coq Require Import List ZArith Lia Bool Reals Lra.
From Verif Require Import PyCommon CommonProofs UtilsModel UtilsSpec UtilsProofs2 DistModel DistSpec DistProofs DistProofs2 LossSpec QModel TDModel TDSpec PolicyModel PolicySpec PolicyProofs PolicyProofs2 PolicyProofs3 PolicyProofs4 PolicyProofs5 PolicyProps MeanSpec MeanProofs DrawProofs2 DrawProofs3.
Import ListNotations.
Local Open Scope R_scope.

(** [F] is the indicator of the event that the outcome is [a]. *)
Definition indicates {T} (n : nat) (run : list R -> outcome T) (a : T) (F : list R -> R) : Prop :=
  forall us, length us = n -> (forall u, In u us -> 0 < u < 1) -> (run us = Ok a /\ F us = 1) \/ (run us <> Ok a /\ F us = 0).

Lemma boltzmann_sum : forall n z a, length z = n -> boltzmann n z a = exp (nth a z 0) / sum_over z exp.
Proof.
  intros n z a <-. unfold boltzmann. f_equal. clear a. unfold total. induction z as [|x l IH]; [reflexivity|]. cbn [length seq map fold_right nth]. rewrite sum_cons, <- seq_shift, map_map. cbn [nth]. now rewrite IH.
Qed.

(** C109: the category drawn with CategoricalDist.sample and postprocess_variate is [a] with the probability that the softmax of the
    logits gives to [a], for every temperature of the Gumbel softmax and every noise that breaks ties. *)
Theorem C109_sample : forall n tau z gs a F, (a < n)%nat -> length z = n -> 0 < tau -> noise n gs ->
  indicates n (fun us => bind (cat_sample n tau z us) (fun X => cat_post n X gs)) a F -> mean_units n F (boltzmann n z a).
Proof.
  intros n tau z gs a F Ha Hz Ht [Lg Hg] HF. rewrite boltzmann_sum by auto. apply (@draw_mean n tau z gs a); auto. intros us x Lu HU E. specialize (HF us Lu HU). cbv beta in HF. rewrite E in HF. cbn [bind] in HF.
  destruct HF as [[H1 H2]|[H1 H2]]; split; intros; auto; contradiction.
Qed.
Print Assumptions C109_sample.
Definition drawn_is (n : nat) (tau : R) (z gs : list R) (a : nat) (us : list R) : R :=
  match bind (cat_sample n tau z us) (fun X => cat_post n X gs) with Ok b => if Nat.eqb b a then 1 else 0 | Err _ => 0 end.
Example C109_sample_ex : noise 2 [1; 2] /\ indicates 2 (fun us => bind (cat_sample 2 1 [0; ln 3] us) (fun X => cat_post 2 X [1; 2])) 1%nat (drawn_is 2 1 [0; ln 3] [1; 2] 1) /\ boltzmann 2 [0; ln 3] 1 = 3/4.
Proof.
  split; [exact ex_noise|]. split.
  - intros us _ _. unfold drawn_is. destruct (bind (cat_sample 2 1 [0; ln 3] us) (fun X => cat_post 2 X [1; 2])) as [b|e]; [|right; split; [discriminate|reflexivity]].
    destruct (Nat.eqb_spec b 1) as [->|N]; [left; auto|right; split; [congruence|reflexivity]].
  - unfold boltzmann, total. cbn [seq map nth fold_right]. rewrite exp_0, exp_ln by lra. field.
Qed.

(** C109: the same for the action returned by policy(s), with or without log-propensity. *)
Theorem C109_policy_call : forall n tau z gs a F, (a < n)%nat -> length z = n -> 0 < tau -> noise n gs ->
  indicates n (fun us => match policy_call n tau z us gs with Ok (b, _) => Ok b | Err e => Err e end) a F -> mean_units n F (boltzmann n z a).
Proof.
  intros n tau z gs a F Ha Hz Ht Hn HF. apply (C109_sample n tau z gs a F Ha Hz Ht Hn). intros us Lu HU. specialize (HF us Lu HU). cbv beta in HF. destruct (@call_spec n tau z us gs) as (b & lp & E & _); auto; try lia. rewrite E in HF.
  assert (E2 : bind (cat_sample n tau z us) (fun X => cat_post n X gs) = Ok b).
  { unfold policy_call in E. destruct (cat_sample n tau z us) as [X|]; cbn [bind] in *; [|discriminate]. destruct (cat_log_proba n z X) as [l|]; cbn [bind] in *; [|discriminate]. destruct (cat_post n X gs) as [c|]; cbn [bind] in *; [congruence|discriminate]. }
  cbv beta. rewrite E2. exact HF.
Qed.
Print Assumptions C109_policy_call.
Example C109_policy_call_ex : forall us, length us = 2%nat -> exists b lp, policy_call 2 1 [0; ln 3] us [1; 2] = Ok (b, lp).
Proof. intros us Lu. destruct (@call_spec 2 1 [0; ln 3] us [1; 2]) as (b & lp & E & _); auto; try lra; [exact ex_noise|eauto]. Qed.

(** C109: EpsilonGreedy(q, eps)(s) takes action [a] with the textbook probability, up to the smoothing by 1e-15. *)
Theorem C109_epsilon_greedy : forall (St : Type) n eps tau (q : qfun St R) s gs a F, (a < n)%nat -> width n q -> 0 <= eps <= 1 -> 0 < tau -> noise n gs ->
  indicates n (fun us => bind (eps_greedy n eps q s) (fun z => match policy_call n tau z us gs with Ok (b, _) => Ok b | Err e => Err e end)) a F ->
  exists p, eps_greedy_probability n eps (qval n q s) a p /\ mean_units n F ((p + smoothing_1e15) / (1 + INR n * smoothing_1e15)).
Proof.
  intros St n eps tau q s gs a F Ha Hw He Ht Hn HF. destruct (@C51_epsilon_greedy St n eps q s) as (z & E & Lz & H); auto; try lia. destruct (H a Ha) as (p & Hp & B & _). exists p. split; auto. rewrite <- B.
  apply (C109_policy_call n tau z gs a F); auto. intros us Lu HU. specialize (HF us Lu HU). cbv beta in HF. rewrite E in HF. exact HF.
Qed.
Print Assumptions C109_epsilon_greedy.
Example C109_epsilon_greedy_ex : width 2 ex_q2 /\ noise 2 [1; 2] /\ eps_greedy_probability 2 (1/5) (qval 2 ex_q2 3%nat) 1 (9/10).
Proof. split; [exact ex_q2_width|]. split; [exact ex_noise|]. apply C51_epsilon_greedy_ex. Qed.

(** C109: BoltzmannPolicy(q, t)(s) takes action [a] with probability proportional to exp(q(s, a) / t). *)
Theorem C109_boltzmann : forall (St : Type) n t tau (q : qfun St R) s gs a F, (a < n)%nat -> width n q -> 0 < t -> 0 < tau -> noise n gs ->
  indicates n (fun us => bind (boltzmann_policy n t q s) (fun z => match policy_call n tau z us gs with Ok (b, _) => Ok b | Err e => Err e end)) a F ->
  mean_units n F (exp (qval n q s a / t) / total (map (fun c => exp (qval n q s c / t)) (seq 0 n))).
Proof.
  intros St n t tau q s gs a F Ha Hw Ht0 Ht Hn HF. destruct (@C51_boltzmann St n t q s) as (z & E & Lz & H & _); auto; try lia. rewrite <- H by auto.
  apply (C109_policy_call n tau z gs a F); auto. intros us Lu HU. specialize (HF us Lu HU). cbv beta in HF. rewrite E in HF. exact HF.
Qed.
Print Assumptions C109_boltzmann.
Example C109_boltzmann_ex : width 2 ex_q2 /\ noise 2 [1; 2] /\ qval 2 ex_q2 3%nat 0 < qval 2 ex_q2 3%nat 1.
Proof. split; [exact ex_q2_width|]. split; [exact ex_noise|]. cbn. lra. Qed.

(** C109: the probabilities of all actions sum to one. *)
Theorem C109_total : forall n z, (1 <= n)%nat -> total (map (boltzmann n z) (seq 0 n)) = 1.
Proof.
  intros n z Hn. assert (P : 0 < total (map (fun k => exp (nth k z 0)) (seq 0 n))). { destruct n; [lia|]. unfold total. cbn [seq map fold_right]. assert (forall l, 0 <= fold_right Rplus 0 (map (fun k => exp (nth k z 0)) l)) by (induction l as [|x l IH]; cbn; [lra|pose proof (exp_pos (nth x z 0)); lra]). pose proof (exp_pos (nth 0 z 0)). specialize (H (seq 1 n)). lra. }
  unfold boltzmann. set (T := total (map (fun k => exp (nth k z 0)) (seq 0 n))) in *. assert (Q : forall l, total (map (fun a => exp (nth a z 0) / T) l) = total (map (fun k => exp (nth k z 0)) l) / T) by (induction l as [|x l IH]; unfold total in *; cbn [map fold_right]; [field; lra|rewrite IH; field; lra]).
  rewrite Q. fold T. field. lra.
Qed.
Print Assumptions C109_total.
Example C109_total_ex : (1 <= 2)%nat. Proof. lia. Qed.
