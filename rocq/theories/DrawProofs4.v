(** Ties of argmax are broken uniformly. *)
From Coq Require Import List ZArith Lia Bool Reals Lra.
From Verif Require Import PyCommon CommonProofs UtilsModel UtilsSpec UtilsProofs2 UtilsProofs3 DistModel DistSpec DistProofs DistProofs2 MeanSpec MeanProofs DrawProofs2 DrawProofs3.
Import ListNotations.
Set Implicit Arguments.
Local Open Scope R_scope.

Lemma jax_categorical_mean : forall n z a F, length z = n -> (a < n)%nat ->
  (forall us, length us = n -> (forall u, In u us -> 0 < u < 1) -> F us = if Nat.eqb (jnp_argmax (zipw (fun u x => - ln (- ln u) + x) us z)) a then 1 else 0) ->
  mean_units n F (exp (nth a z 0) / sum_over z exp).
Proof.
  intros n z a F Hz Ha H. set (gs := map (fun _ : nat => 0) (seq 0 n)). assert (Lg : length gs = n) by (unfold gs; now rewrite map_length, seq_length). assert (G : forall j, (j < n)%nat -> nth j gs 0 = 0). { intros j _. unfold gs. generalize (seq 0 n). intros l. revert j. induction l; intros [|j]; cbn; auto. }
  assert (B : forall j, (j < n)%nat -> (beats gs a j <-> (a < j)%nat)). { intros j Hj. unfold beats. rewrite !G by auto. split; [intros [C|[_ C]]; [lra|auto]|auto]. }
  assert (P : forall ct, In ct (before z gs a ++ after n z gs a) -> 0 < fst ct) by (intros ct I; apply in_app_iff in I; destruct I as [I|I]; apply in_map_iff in I; destruct I as (j & <- & _); apply exp_pos).
  pose proof (race_mean _ _ P) as M. rewrite len_before, len_after in M. replace (a + S (n - S a))%nat with n in M by lia. rewrite (@runners_sum n z gs a Hz Lg Ha) in M.
  replace (exp (nth a z 0) / sum_over z exp) with (/ (sum_over z exp / exp (nth a z 0))).
  - eapply mean_units_ext; [|exact M]. intros us Lu HU. cbv beta. rewrite H by auto. set (s := zipw (fun u x => - ln (- ln u) + x) us z). assert (Ls : length s = n) by (unfold s; rewrite zipw_length; lia). assert (NE : s <> []) by (intros C; rewrite C in Ls; cbn in Ls; lia).
    assert (D : jnp_argmax s = a <-> wins (before z gs a) (after n z gs a) (fun _ => true) us = true).
    { rewrite jnp_argmax_iff by auto. rewrite Ls. rewrite wins_iff by (rewrite len_before, len_after; lia). cbv zeta. rewrite len_before, len_after. split.
      - intros [_ D]. split; auto. split; intros j Hj.
        + unfold before. rewrite nth_runner by auto. cbn [plus]. eapply behind_iff; eauto; try lia. cbv zeta. fold s. rewrite B by lia. apply D; lia.
        + unfold after. rewrite nth_runner by auto. replace (a + 1 + j)%nat with (S a + j)%nat by lia. eapply behind_iff; eauto; try lia. cbv zeta. fold s. rewrite B by lia. apply D; lia.
      - intros (_ & D1 & D2). split; auto. intros j Hj N. rewrite <- B by auto. apply (@behind_iff n z gs a Hz Lg Ha us j); auto. destruct (Nat.lt_ge_cases j a) as [L|L].
        + specialize (D1 j L). unfold before in D1. now rewrite nth_runner in D1.
        + specialize (D2 (j - S a)%nat ltac:(lia)). unfold after in D2. rewrite nth_runner in D2 by lia. replace (a + 1 + (j - S a))%nat with j in D2 by lia. replace (S a + (j - S a))%nat with j in D2 by lia. exact D2. }
    destruct (wins (before z gs a) (after n z gs a) (fun _ => true) us); destruct (Nat.eqb_spec (jnp_argmax s) a) as [E|E]; cbn; auto; exfalso.
    + apply E. now apply D.
    + apply D in E. discriminate.
  - assert (0 < sum_over z exp).
    { destruct z as [|x l]; [cbn in Hz; lia|]. rewrite sum_cons. pose proof (exp_pos x). assert (0 <= sum_over l exp) by (apply sum_over_nonneg; intros; left; apply exp_pos). lra. }
    pose proof (exp_pos (nth a z 0)). field. split; lra.
Qed.

Lemma logits_zip : forall arr m us, length us = length arr ->
  map (fun lg => fst lg + snd lg) (combine (map (fun y => if Req_EM_T y m then 50 else -50) arr) (map gumbel us)) = zipw (fun u x => - ln (- ln u) + x) us (map (fun y => if Req_EM_T y m then 50 else -50) arr).
Proof.
  induction arr as [|y arr IH]; intros m [|u us] L; cbn in L; try lia; auto. cbn [map combine zipw fst snd]. f_equal; [unfold gumbel; ring|]. apply IH. lia.
Qed.

(** The sum over the logits: k maximisers. *)
Lemma logits_sum : forall arr m K, NoDup K -> (forall i, In i K <-> (i < length arr)%nat /\ nth i arr 0 = m) ->
  sum_over (map (fun y => if Req_EM_T y m then 50 else -50) arr) exp = INR (length K) * exp 50 + INR (length arr - length K) * exp (-50).
Proof.
  intros arr m K ND HK. rewrite sum_over_map. 
  assert (C : forall l : list R, sum_over l (fun y => exp (if Req_EM_T y m then 50 else -50)) = INR (length (filter (fun y => if Req_EM_T y m then true else false) l)) * exp 50 + INR (length l - length (filter (fun y => if Req_EM_T y m then true else false) l)) * exp (-50)).
  { induction l as [|y l IH]; [unfold sum_over; cbn; ring|]. assert (FL : (length (filter (fun y => if Req_EM_T y m then true else false) l) <= length l)%nat) by (clear; induction l; cbn; [lia|destruct (Req_EM_T a m); cbn; lia]).
    rewrite sum_cons, IH. cbn [filter]. destruct (Req_EM_T y m); cbn [length]; [rewrite S_INR; cbn [Nat.sub]; ring|]. rewrite Nat.sub_succ_l by auto. rewrite S_INR. ring. }
  rewrite C. set (f := fun y => if Req_EM_T y m then true else false) in *. assert (E : length K = length (filter f arr)); [|now rewrite E].
  assert (E2 : length (filter (fun i => f (nth i arr 0)) (seq 0 (length arr))) = length (filter f arr)).
  { clear. induction arr as [|y arr IH]; [reflexivity|]. assert (Q : length (filter (fun i => f (nth i (y :: arr) 0)) (seq 1 (length arr))) = length (filter f arr)).
    { rewrite <- IH. rewrite <- seq_shift. clear. induction (seq 0 (length arr)) as [|i l IH]; [reflexivity|]. cbn [map filter]. change (nth (S i) (y :: arr) 0) with (nth i arr 0). destruct (f (nth i arr 0)); cbn [length]; rewrite IH; reflexivity. }
    cbn [length seq filter]. change (nth 0 (y :: arr) 0) with y. destruct (f y); cbn [length]; rewrite Q; reflexivity. }
  rewrite <- E2. apply Nat.le_antisymm; apply NoDup_incl_length; auto; try (apply NoDup_filter, seq_NoDup).
  - intros i I. apply HK in I. destruct I as [I1 I2]. apply filter_In. split; [apply in_seq; lia|]. unfold f. destruct (Req_EM_T (nth i arr 0) m); auto.
  - intros i I. apply filter_In in I. destruct I as [I1 I2]. apply in_seq in I1. apply HK. split; [lia|]. unfold f in I2. destruct (Req_EM_T (nth i arr 0) m); auto. discriminate.
Qed.

Lemma argmax_mean : forall arr K a F, NoDup K -> (forall i, In i K <-> maximal_at arr i) -> (a < length arr)%nat ->
  (forall us, length us = length arr -> (forall u, In u us -> 0 < u < 1) -> (argmax arr (map gumbel us) = Ok a /\ F us = 1) \/ (argmax arr (map gumbel us) <> Ok a /\ F us = 0)) ->
  (In a K -> mean_units (length arr) F (1 / (INR (length K) + INR (length arr - length K) * exp (-100)))) /\
  (~ In a K -> mean_units (length arr) F (exp (-100) / (INR (length K) + INR (length arr - length K) * exp (-100)))).
Proof.
  intros arr K a F ND HK Ha HF. destruct arr as [|x l]; [cbn in Ha; lia|]. set (arr := x :: l) in *. set (m := rmax_list x l). destruct (rmax_list_ge l x) as [U1 U2]. pose proof (rmax_list_in l x) as M. fold m in U1, U2, M.
  assert (UB : forall i, (i < length arr)%nat -> nth i arr 0 <= m) by (intros i Hi; pose proof (nth_In arr 0 Hi) as [<-|I]; auto).
  assert (AT : exists k, (k < length arr)%nat /\ nth k arr 0 = m) by (apply (In_nth arr m 0); exact M). destruct AT as (k0 & Hk0 & Ek0).
  assert (HK2 : forall i, In i K <-> (i < length arr)%nat /\ nth i arr 0 = m).
  { intros i. rewrite HK. unfold maximal_at. split; intros [H1 H2]; split; auto; [apply Rle_antisym; auto; rewrite <- Ek0; auto|]. intros j Hj. rewrite H2. auto. }
  set (z := map (fun y => if Req_EM_T y m then 50 else -50) arr). assert (Lz : length z = length arr) by (unfold z; now rewrite map_length).
  assert (Z : nth a z 0 = if Req_EM_T (nth a arr 0) m then 50 else -50) by (unfold z; now rewrite (@nth_map0 (fun y => if Req_EM_T y m then 50 else -50) arr a 0)).
  assert (AE : forall us, length us = length arr -> argmax arr (map gumbel us) = Ok (jnp_argmax (zipw (fun u x => - ln (- ln u) + x) us z))) by (intros us Lu; unfold z; rewrite <- logits_zip by auto; reflexivity).
  assert (MM : mean_units (length arr) F (exp (nth a z 0) / sum_over z exp)).
  { apply jax_categorical_mean; auto. intros us Lu HU. destruct (HF us Lu HU) as [[H1 H2]|[H1 H2]]; rewrite H2; rewrite AE in H1 by auto; destruct (Nat.eqb_spec (jnp_argmax (zipw (fun u x => - ln (- ln u) + x) us z)) a); auto; [exfalso; congruence|exfalso; apply H1; congruence]. }
  unfold z in MM at 2. rewrite (@logits_sum arr m K ND HK2) in MM. assert (E100 : exp (-50) = exp 50 * exp (-100)) by (rewrite <- exp_plus; f_equal; lra). rewrite E100 in MM. rewrite Z in MM. pose proof (exp_pos 50). pose proof (exp_pos (-100)).
  assert (KP : (0 < length K)%nat) by (destruct K; [destruct (HK2 k0) as [_ Q]; destruct (Q (conj Hk0 Ek0))|cbn; lia]). apply lt_0_INR in KP. pose proof (pos_INR (length arr - length K)). assert (0 < INR (length K) + INR (length arr - length K) * exp (-100)) by (assert (0 <= INR (length arr - length K) * exp (-100)) by (apply Rmult_le_pos; lra); lra).
  split; intros I.
  - destruct (Req_EM_T (nth a arr 0) m) as [_|N]; [|exfalso; apply N; now apply HK2]. replace (1 / (INR (length K) + INR (length arr - length K) * exp (-100))) with (exp 50 / (INR (length K) * exp 50 + INR (length arr - length K) * (exp 50 * exp (-100)))); auto. field. split; [nra|nra].
  - destruct (Req_EM_T (nth a arr 0) m) as [Y|_]; [exfalso; apply I, HK2; auto|]. rewrite E100 in MM. replace (exp (-100) / (INR (length K) + INR (length arr - length K) * exp (-100))) with (exp 50 * exp (-100) / (INR (length K) * exp 50 + INR (length arr - length K) * (exp 50 * exp (-100)))); auto. field. split; [nra|nra].
Qed.
