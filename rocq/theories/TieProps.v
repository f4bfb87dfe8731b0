(** Property C110: ties are broken uniformly. *)
From Coq Require Import List ZArith Lia Bool Reals Lra.
From Verif Require Import PyCommon CommonProofs UtilsModel UtilsSpec UtilsProofs2 DistModel DistSpec DistProofs DistProofs2 LossSpec QModel TDSpec PolicyModel PolicySpec MeanSpec MeanProofs DrawProofs2 DrawProofs3 DrawProofs4 GumbelProps.
Import ListNotations.
Local Open Scope R_scope.

(** A draw of jax.random.gumbel from a uniform number. *)
Definition gumbel_noise (us : list R) : list R := map (fun u => - ln (- ln u)) us.
(** The chance of one of [k] best positions out of [n], and of one of the others: the noise would have to exceed 100. *)
Definition chance_best (n k : nat) : R := 1 / (INR k + INR (n - k) * exp (-100)).
Definition chance_other (n k : nat) : R := exp (-100) / (INR k + INR (n - k) * exp (-100)).
Definition lists (P : nat -> Prop) (K : list nat) : Prop := NoDup K /\ forall i, In i K <-> P i.

(** C110: coax.utils.argmax: every maximal position has the same chance, practically 1/k (see C110_chances). *)
Theorem C110_argmax : forall arr K a F, lists (maximal_at arr) K -> (a < length arr)%nat -> indicates (length arr) (fun us => argmax arr (gumbel_noise us)) a F ->
  (In a K -> mean_units (length arr) F (chance_best (length arr) (length K))) /\ (~ In a K -> mean_units (length arr) F (chance_other (length arr) (length K))).
Proof. intros arr K a F [ND HK] Ha HF. apply (@argmax_mean arr K a F ND HK Ha). exact HF. Qed.
Print Assumptions C110_argmax.
Example C110_argmax_ex : lists (maximal_at [7; 3; 7]) [0; 2]%nat.
Proof.
  split; [repeat constructor; cbn; intuition discriminate|]. intros i. split.
  - intros [<-|[<-|[]]]; (split; [cbn; lia|]; intros [|[|[|j]]] Hj; cbn in *; try lra; lia).
  - intros [Hi H]. specialize (H 0%nat ltac:(cbn; lia)). destruct i as [|[|[|i]]]; cbn in *; auto; try lra; lia.
Qed.

(** C110: the same for argmin. *)
Theorem C110_argmin : forall arr K a F, lists (minimal_at arr) K -> (a < length arr)%nat -> indicates (length arr) (fun us => argmin arr (gumbel_noise us)) a F ->
  (In a K -> mean_units (length arr) F (chance_best (length arr) (length K))) /\ (~ In a K -> mean_units (length arr) F (chance_other (length arr) (length K))).
Proof.
  intros arr K a F [ND HK] Ha HF. rewrite <- (map_length Ropp arr) in *. apply (C110_argmax (map Ropp arr) K a F); auto. split; auto. intros i. rewrite HK. unfold minimal_at, maximal_at. rewrite map_length. split; intros [H1 H2]; split; auto; intros j Hj; specialize (H2 j Hj); rewrite !nth_map_opp in *; lra.
Qed.
Print Assumptions C110_argmin.
Example C110_argmin_ex : lists (minimal_at [1; 3; 1]) [0; 2]%nat.
Proof.
  split; [repeat constructor; cbn; intuition discriminate|]. intros i. split.
  - intros [<-|[<-|[]]]; (split; [cbn; lia|]; intros [|[|[|j]]] Hj; cbn in *; try lra; lia).
  - intros [Hi H]. specialize (H 0%nat ltac:(cbn; lia)). destruct i as [|[|[|i]]]; cbn in *; auto; try lra; lia.
Qed.

(** C110: policy.mode(s) takes every most likely action with the same chance. *)
Theorem C110_mode : forall n tau z K a F, (a < n)%nat -> length z = n -> 0 < tau -> lists (optimal n (boltzmann n z)) K -> indicates n (fun us => policy_mode n tau z (gumbel_noise us)) a F ->
  (In a K -> mean_units n F (chance_best n (length K))) /\ (~ In a K -> mean_units n F (chance_other n (length K))).
Proof.
  intros n tau z K a F Ha Hz Ht [ND HK] HF. destruct (@mode_spec n tau z) as (m & Em & Lm & _ & Hm); auto; try lia. rewrite <- Lm in *. apply (C110_argmax m K a F); auto.
  - split; auto. intros i. rewrite HK, Hm. unfold optimal, maximal_at. rewrite Hz. unfold boltzmann. set (T := total _). assert (TP : 0 < T).
    { unfold T, total. clear - Ha. destruct (length m) as [|k]; [lia|]. cbn [seq map fold_right]. assert (forall l, 0 <= fold_right Rplus 0 (map (fun c => exp (nth c z 0)) l)) by (induction l as [|x l IH]; cbn; [lra|pose proof (exp_pos (nth x z 0)); lra]). pose proof (exp_pos (nth 0 z 0)). specialize (H (seq 1 k)). lra. }
    assert (O : forall x y, exp x / T <= exp y / T <-> x <= y).
    { intros x y. assert (0 < / T) by now apply Rinv_0_lt_compat. unfold Rdiv. split; intros L.
      - apply Rmult_le_reg_r in L; auto. destruct (Rle_or_lt x y) as [|C]; auto. apply exp_increasing in C. lra.
      - apply Rmult_le_compat_r; [lra|]. destruct L as [L|L]; [left; now apply exp_increasing|rewrite L; lra]. }
    split; intros [H1 H2]; split; auto; intros j Hj; apply O; auto.
  - intros us Lu HU. specialize (HF us Lu HU). cbv beta in HF. unfold policy_mode in HF. rewrite Em in HF. cbn [bind] in HF. unfold cat_post in HF. rewrite Nat.eqb_refl in HF. exact HF.
Qed.
Print Assumptions C110_mode.
Example C110_mode_ex : lists (optimal 2 (boltzmann 2 [1; 1])) [0; 1]%nat.
Proof.
  split; [repeat constructor; cbn; intuition discriminate|]. intros i. split.
  - intros [<-|[<-|[]]]; (split; [lia|]; intros [|[|j]] Hj; [| |lia]; unfold boltzmann; cbn; lra).
  - intros [Hi _]. destruct i as [|[|i]]; cbn; auto; lia.
Qed.

(** C110: the two chances: 1/k up to n e^-100, and at most e^-100. *)
Theorem C110_chances : forall n k, (1 <= k <= n)%nat -> 1 / INR k - INR n * exp (-100) <= chance_best n k <= 1 / INR k /\ 0 < chance_other n k <= exp (-100) /\ INR k * chance_best n k + INR (n - k) * chance_other n k = 1.
Proof.
  intros n k [H1 H2]. apply le_INR in H1. change (INR 1) with 1 in H1. assert (E : INR n = INR k + INR (n - k)) by (rewrite <- plus_INR; f_equal; lia). pose proof (pos_INR (n - k)) as P. pose proof (exp_pos (-100)) as X. set (x := exp (-100)) in *. unfold chance_best, chance_other. fold x. set (d := INR (n - k)) in *. rewrite E. set (c := INR k) in *.
  assert (D : 0 < c + d * x) by nra. assert (DI : 0 < / (c + d * x) <= 1). { split; [now apply Rinv_0_lt_compat|]. rewrite <- Rinv_1. apply Rinv_le_contravar; [lra|nra]. } assert (CI : 0 < / c <= 1). { split; [apply Rinv_0_lt_compat; lra|]. rewrite <- Rinv_1. apply Rinv_le_contravar; lra. }
  split; [split|split; [split|]].
  - assert (Q : 1 / c - 1 / (c + d * x) = d * x * (/ c * / (c + d * x))) by (field; lra). assert (0 <= d * x) by nra. assert (/ c * / (c + d * x) <= 1) by nra. assert (0 <= / c * / (c + d * x)) by nra. nra.
  - unfold Rdiv. rewrite !Rmult_1_l. apply Rinv_le_contravar; [lra|nra].
  - unfold Rdiv. nra.
  - unfold Rdiv. nra.
  - field. lra.
Qed.
Print Assumptions C110_chances.
Example C110_chances_ex : (1 <= 2 <= 3)%nat. Proof. lia. Qed.
