(** Proofs about faded averages and the sequences that Adam makes of them. *)
From Coq Require Import List Lia Bool Arith Reals Lra Psatz Classical.
From Verif Require Import PyCommon CommonProofs UtilsSpec UtilsProofs2 UtilsProofs3 DistModel DistSpec DistProofs LearnProofs5 AdamModel AdamSpec.
Import ListNotations.
Set Implicit Arguments.
Local Open Scope R_scope.

Definition fsum (b : R) (xs : list R) : R := total (map (fun j => b ^ (length xs - 1 - j) * nth j xs 0) (seq 0 (length xs))).
Definition den (b : R) (n : nat) : R := total (map (fun j => b ^ (n - 1 - j)) (seq 0 n)).
Lemma faded_eq : forall b xs, faded b xs = fsum b xs / den b (length xs).
Proof. reflexivity. Qed.
Lemma fsum_nil : forall b, fsum b [] = 0. Proof. reflexivity. Qed.
Lemma fsum_snoc : forall b xs x, fsum b (xs ++ [x]) = b * fsum b xs + x.
Proof.
  intros b xs x. unfold fsum. rewrite app_length. cbn [length]. rewrite Nat.add_1_r, seq_S, map_app, total_app. cbn [Nat.add map]. rewrite total_cons. change (total []) with 0.
  replace (S (length xs) - 1 - length xs)%nat with 0%nat by lia. rewrite app_nth2, Nat.sub_diag by lia. cbn [nth pow]. rewrite Rmult_1_l, Rplus_0_r. f_equal. rewrite <- total_scal. apply total_ext. intros j Hj. apply in_seq in Hj.
  rewrite app_nth1 by lia. replace (S (length xs) - 1 - j)%nat with (S (length xs - 1 - j)) by lia. cbn [pow]. ring.
Qed.
Lemma den_0 : forall b, den b 0 = 0. Proof. reflexivity. Qed.
Lemma den_S : forall b n, den b (S n) = b * den b n + 1.
Proof.
  intros b n. unfold den. rewrite seq_S, map_app, total_app. cbn [Nat.add map]. rewrite total_cons. change (total []) with 0. replace (S n - 1 - n)%nat with 0%nat by lia. cbn [pow]. rewrite Rplus_0_r. f_equal. rewrite <- total_scal. apply total_ext. intros j Hj. apply in_seq in Hj.
  replace (S n - 1 - j)%nat with (S (n - 1 - j)) by lia. reflexivity.
Qed.
Lemma den_geo : forall b n, den b n * (1 - b) = 1 - b ^ n.
Proof. intros b n. induction n as [|n IH]; [rewrite den_0; cbn; ring|]. rewrite den_S. cbn [pow]. replace ((b * den b n + 1) * (1 - b)) with (b * (den b n * (1 - b)) + (1 - b)) by ring. rewrite IH. ring. Qed.
Lemma den_nonneg : forall b n, 0 <= b -> 0 <= den b n.
Proof. intros b n Hb. induction n as [|n IH]; [rewrite den_0; lra|]. rewrite den_S. nra. Qed.
Lemma den_ge1 : forall b n, 0 <= b -> 1 <= den b (S n).
Proof. intros b n Hb. rewrite den_S. pose proof (@den_nonneg b n Hb). nra. Qed.
Lemma den_le : forall b n, 0 <= b < 1 -> den b n <= / (1 - b).
Proof. intros b n Hb. apply Rmult_le_reg_r with (1 - b); [lra|]. rewrite den_geo, Rinv_l by lra. assert (0 <= b ^ n) by (apply pow_le; lra). lra. Qed.
Lemma fsum_nonneg : forall b xs, 0 <= b -> (forall x, In x xs -> 0 <= x) -> 0 <= fsum b xs.
Proof.
  intros b xs Hb. induction xs as [|x xs IH] using rev_ind; intros H; [rewrite fsum_nil; lra|]. rewrite fsum_snoc. assert (0 <= fsum b xs) by (apply IH; intros; apply H, in_or_app; auto). assert (0 <= x) by (apply H, in_or_app; cbn; auto). nra.
Qed.
Definition sq (x : R) : R := x ^ 2.
Lemma sq_nonneg : forall xs x, In x (map sq xs) -> 0 <= x.
Proof. intros xs x H. apply in_map_iff in H. destruct H as (y & <- & _). unfold sq. nra. Qed.
Lemma fsum_cs : forall b xs, 0 <= b -> fsum b xs ^ 2 <= den b (length xs) * fsum b (map sq xs).
Proof.
  intros b xs Hb. induction xs as [|x xs IH] using rev_ind; [rewrite fsum_nil, den_0; cbn; lra|]. rewrite map_app, app_length. cbn [map length]. rewrite Nat.add_1_r, !fsum_snoc, den_S.
  pose proof (@den_nonneg b (length xs) Hb) as D0. pose proof (@fsum_nonneg b (map sq xs) Hb (@sq_nonneg xs)) as Q0. revert IH D0 Q0. generalize (den b (length xs)) (fsum b (map sq xs)) (fsum b xs). intros D Q F IH D0 Q0. unfold sq.
  assert (A : 2 * F * x <= D * x ^ 2 + Q).
  { destruct (Rle_lt_dec (2 * F * x) 0) as [N|P]; [nra|]. apply Rsqr_incr_0_var; [|nra]. unfold Rsqr.
    assert (E1 : 2 * F * x * (2 * F * x) = 4 * (F ^ 2 * x ^ 2)) by ring. rewrite E1. assert (F ^ 2 * x ^ 2 <= D * Q * x ^ 2) by (apply Rmult_le_compat_r; nra). assert (0 <= (D * x ^ 2 - Q) ^ 2) by apply pow2_ge_0.
    assert (E2 : (D * x ^ 2 + Q) * (D * x ^ 2 + Q) = (D * x ^ 2 - Q) ^ 2 + 4 * (D * Q * x ^ 2)) by ring. rewrite E2. lra. }
  assert (B : b * (2 * F * x) <= b * (D * x ^ 2 + Q)) by (apply Rmult_le_compat_l; auto). assert (C : b ^ 2 * F ^ 2 <= b ^ 2 * (D * Q)) by (apply Rmult_le_compat_l; [nra|exact IH]).
  replace ((b * F + x) ^ 2) with (b ^ 2 * F ^ 2 + b * (2 * F * x) + x ^ 2) by ring. replace ((b * D + 1) * (b * Q + x ^ 2)) with (b ^ 2 * (D * Q) + b * (D * x ^ 2 + Q) + x ^ 2) by ring. lra.
Qed.
Lemma fsum_mono : forall b c xs, 0 <= b <= c -> (forall x, In x xs -> 0 <= x) -> fsum b xs <= fsum c xs.
Proof.
  intros b c xs Hb. induction xs as [|x xs IH] using rev_ind; intros H; [rewrite !fsum_nil; lra|]. rewrite !fsum_snoc. assert (P : forall z, In z xs -> 0 <= z) by (intros; apply H, in_or_app; auto). specialize (IH P). pose proof (@fsum_nonneg b xs (proj1 Hb) P). nra.
Qed.
(** One step of Adam, as a function of the gradients so far. *)
Definition astep (b1 b2 eps : R) (xs : list R) : R := faded b1 xs / (sqrt (faded b2 (map sq xs)) + eps).
Lemma astep_bound : forall b1 b2 eps xs, 0 <= b1 <= b2 -> b2 < 1 -> 0 < eps -> Rabs (astep b1 b2 eps xs) <= sqrt ((1 - b1) / (1 - b2)).
Proof.
  intros b1 b2 eps xs Hb H2 He. unfold astep. rewrite !faded_eq, map_length. destruct (length xs) as [|n] eqn:L.
  { apply length_zero_iff_nil in L. subst xs. cbn [map]. rewrite !fsum_nil. unfold Rdiv. rewrite !Rmult_0_l, Rabs_R0. apply sqrt_pos. }
  pose proof (@fsum_cs b1 xs (proj1 Hb)) as CS. rewrite L in CS. pose proof (@fsum_mono b1 b2 (map sq xs) Hb (@sq_nonneg xs)) as MO. pose proof (@fsum_nonneg b2 (map sq xs) ltac:(lra) (@sq_nonneg xs)) as QN.
  pose proof (@den_ge1 b1 n (proj1 Hb)) as D1. pose proof (@den_ge1 b2 n ltac:(lra)) as D2. assert (DD : den b2 (S n) * (1 - b2) <= den b1 (S n) * (1 - b1)). { rewrite !den_geo. assert (b1 ^ S n <= b2 ^ S n) by (apply pow_incr; lra). lra. }
  set (F := fsum b1 xs) in *. set (Q1 := fsum b1 (map sq xs)) in *. set (Q2 := fsum b2 (map sq xs)) in *. set (E1 := den b1 (S n)) in *. set (E2 := den b2 (S n)) in *.
  assert (V0 : 0 <= Q2 / E2) by (apply Rmult_le_pos; [auto|apply Rlt_le, Rinv_0_lt_compat; lra]). pose proof (sqrt_pos (Q2 / E2)) as SP.
  assert (K : Rabs (F / E1) <= sqrt ((1 - b1) / (1 - b2)) * sqrt (Q2 / E2)).
  { assert (C0 : 0 <= (1 - b1) / (1 - b2)) by (apply Rmult_le_pos; [lra|apply Rlt_le, Rinv_0_lt_compat; lra]). rewrite <- sqrt_mult by auto. rewrite <- sqrt_Rsqr_abs. apply sqrt_le_1_alt. unfold Rsqr.
    apply Rmult_le_reg_r with (E1 * E1 * (1 - b2) * E2); [apply Rmult_lt_0_compat; [apply Rmult_lt_0_compat; [nra|lra]|lra]|].
    replace (F / E1 * (F / E1) * (E1 * E1 * (1 - b2) * E2)) with (F ^ 2 * ((1 - b2) * E2)) by (field; lra). replace ((1 - b1) / (1 - b2) * (Q2 / E2) * (E1 * E1 * (1 - b2) * E2)) with (E1 * Q2 * (E1 * (1 - b1))) by (field; lra).
    apply Rmult_le_compat; [apply pow2_ge_0|nra| |lra]. eapply Rle_trans; [exact CS|]. apply Rmult_le_compat_l; lra. }
  unfold Rdiv at 1. rewrite Rabs_mult, (Rabs_pos_eq (/ _)) by (apply Rlt_le, Rinv_0_lt_compat; lra). apply Rmult_le_reg_r with (sqrt (Q2 / E2) + eps); [lra|]. rewrite Rmult_assoc, Rinv_l by lra. rewrite Rmult_1_r. eapply Rle_trans; [exact K|]. apply Rmult_le_compat_l; [apply sqrt_pos|lra].
Qed.

Lemma fsum_tail : forall b g zs, (forall x, In x zs -> x = 0) -> fsum b (g :: zs) = b ^ length zs * g.
Proof.
  intros b g zs. induction zs as [|z zs IH] using rev_ind; intros H; [unfold fsum; cbn; ring|]. rewrite app_comm_cons, fsum_snoc, IH by (intros; apply H, in_or_app; auto). rewrite (H z) by (apply in_or_app; cbn; auto). rewrite app_length. cbn [length]. rewrite Nat.add_1_r. cbn [pow]. ring.
Qed.
Lemma astep_tail : forall b1 b2 eps g zs, 0 < b1 -> 0 <= b2 -> 0 < eps -> (forall x, In x zs -> x = 0) -> exists c, 0 < c /\ astep b1 b2 eps (g :: zs) = c * g.
Proof.
  intros b1 b2 eps g zs H1 H2 He Z. unfold astep. set (d := sqrt (faded b2 (map sq (g :: zs))) + eps). assert (D : 0 < d) by (unfold d; pose proof (sqrt_pos (faded b2 (map sq (g :: zs)))); lra). rewrite faded_eq, fsum_tail by auto. cbn [length]. pose proof (@den_ge1 b1 (length zs) ltac:(lra)) as D1.
  exists (b1 ^ length zs / den b1 (S (length zs)) / d). split; [|field; lra]. apply Rdiv_lt_0_compat; auto. apply Rdiv_lt_0_compat; [now apply pow_lt|lra].
Qed.
Lemma astep_one : forall b1 b2 eps g, 0 < eps -> astep b1 b2 eps [g] = g / (Rabs g + eps).
Proof.
  intros b1 b2 eps g He. unfold astep. rewrite !faded_eq. unfold fsum, den, sq. cbn. replace (1 * (g * (g * 1)) + 0) with (Rsqr g) by (unfold Rsqr; ring). replace (Rsqr g / (1 + 0)) with (Rsqr g) by field. rewrite sqrt_Rsqr_abs. f_equal. field.
Qed.
Lemma astep_rest : forall b1 b2 eps xs, (forall x, In x xs -> x = 0) -> astep b1 b2 eps xs = 0.
Proof.
  intros b1 b2 eps xs Z. unfold astep. rewrite faded_eq. assert (E : fsum b1 xs = 0); [|rewrite E; unfold Rdiv; now rewrite !Rmult_0_l]. destruct xs as [|x xs]; [reflexivity|]. rewrite fsum_tail by (intros; apply Z; cbn; auto). rewrite (Z x) by (cbn; auto). ring.
Qed.

(** * Recurrence *)
Section Rec.
Variables (lr b1 b2 eps : R).
Hypotheses (Hlr : 0 < lr) (H1 : 0 < b1 <= b2) (H2 : b2 < 1) (He : 0 < eps).
Definition upto (g : nat -> R) (n : nat) : list R := map g (seq 0 n).
Definition obeys (x g : nat -> R) : Prop := forall n, x (S n) = x n - lr * astep b1 b2 eps (upto g (S n)).
Lemma upto_S : forall g n, upto g (S n) = upto g n ++ [g n].
Proof. intros. unfold upto. now rewrite seq_S, map_app. Qed.
Lemma upto_len : forall g n, length (upto g n) = n.
Proof. intros. unfold upto. now rewrite map_length, seq_length. Qed.
Lemma move : forall x g n, obeys x g -> Rabs (x (S n) - x n) <= lr * sqrt ((1 - b1) / (1 - b2)).
Proof. intros x g n O. rewrite O. replace (x n - lr * astep b1 b2 eps (upto g (S n)) - x n) with (- (lr * astep b1 b2 eps (upto g (S n)))) by ring. rewrite Rabs_Ropp, Rabs_mult, (Rabs_pos_eq lr) by lra. apply Rmult_le_compat_l; [lra|]. apply astep_bound; auto; lra. Qed.
(** Part of the moment that stems from the gradients since T. *)
Lemma since : forall (g : nat -> R) T k, exists P, fsum b1 (upto g (T + k)) = b1 ^ k * fsum b1 (upto g T) + P.
Proof. intros g T k. exists (fsum b1 (upto g (T + k)) - b1 ^ k * fsum b1 (upto g T)). ring. Qed.
Lemma low : forall (g : nat -> R) T c N, (forall n, (T <= n)%nat -> 0 <= g n) -> (forall n, (T <= n)%nat -> exists j, (n <= j < n + N)%nat /\ c <= g j) -> 0 < c ->
  exists T1 m0, (T <= T1)%nat /\ 0 < m0 /\ forall n, (T1 <= n)%nat -> m0 <= fsum b1 (upto g n).
Proof.
  intros g T c N G0 VI Hc. set (P := fun n => fsum b1 (upto g n) - b1 ^ (n - T) * fsum b1 (upto g T)).
  assert (PT : P T = 0) by (unfold P; rewrite Nat.sub_diag; cbn; ring).
  assert (PS : forall n, (T <= n)%nat -> P (S n) = b1 * P n + g n) by (intros n Hn; unfold P; rewrite upto_S, fsum_snoc; replace (S n - T)%nat with (S (n - T)) by lia; cbn [pow]; ring).
  assert (PN : forall k, 0 <= P (T + k)%nat) by (induction k as [|k IH]; [rewrite Nat.add_0_r; lra|]; rewrite Nat.add_succ_r, PS by lia; specialize (G0 (T + k)%nat ltac:(lia)); nra).
  assert (PN' : forall n, (T <= n)%nat -> 0 <= P n) by (intros n Hn; replace n with (T + (n - T))%nat by lia; apply PN).
  assert (PL : forall j i, (T <= j)%nat -> c <= g j -> b1 ^ i * c <= P (S j + i)%nat).
  { intros j i Hj Hg. induction i as [|i IH]; [rewrite Nat.add_0_r, PS by auto; pose proof (PN' j Hj); cbn; nra|]. rewrite Nat.add_succ_r, PS by lia. pose proof (G0 (S j + i)%nat ltac:(lia)). cbn [pow]. rewrite Rmult_assoc. nra. }
  assert (PB : forall n, (T + N <= n)%nat -> b1 ^ N * c <= P n).
  { intros n Hn. destruct (VI (n - N)%nat ltac:(lia)) as (j & Hj & Hg). specialize (PL j (n - S j)%nat ltac:(lia) Hg). replace (S j + (n - S j))%nat with n in PL by lia. eapply Rle_trans; [|exact PL]. apply Rmult_le_compat_r; [lra|].
    replace N with ((n - S j) + (N - (n - S j)))%nat by lia. rewrite pow_add. assert (0 <= b1 ^ (n - S j)) by (apply pow_le; lra). assert (b1 ^ (N - (n - S j)) <= 1) by (rewrite <- (pow1 (N - (n - S j))); apply pow_incr; lra). nra. }
  assert (BP : 0 < b1 ^ N) by (apply pow_lt; lra).
  destruct (@pow_small b1 (Rabs (fsum b1 (upto g T))) (b1 ^ N * c / 2)) as (K & HK); [lra|apply Rabs_pos| |].
  { apply Rdiv_lt_0_compat; [apply Rmult_lt_0_compat; auto|lra]. }
  exists (T + N + K)%nat, (b1 ^ N * c / 2). split; [lia|]. split; [apply Rdiv_lt_0_compat; [apply Rmult_lt_0_compat; auto|lra]|]. intros n Hn. specialize (PB n ltac:(lia)). specialize (HK (n - T)%nat ltac:(lia)).
  assert (E : fsum b1 (upto g n) = b1 ^ (n - T) * fsum b1 (upto g T) + P n) by (unfold P; ring). rewrite E. assert (0 <= b1 ^ (n - T)) by (apply pow_le; lra). pose proof (Rle_abs (- fsum b1 (upto g T))) as A. rewrite Rabs_Ropp in A.
  assert (- (b1 ^ (n - T) * Rabs (fsum b1 (upto g T))) <= b1 ^ (n - T) * fsum b1 (upto g T)) by (rewrite Ropp_mult_distr_r; apply Rmult_le_compat_l; lra). lra.
Qed.
Lemma pos_impossible : forall (x g : nat -> R) y T c L N, obeys x g -> 0 < c -> 0 <= L ->
  (forall n, (T <= n)%nat -> 0 < x n - y /\ 0 <= g n <= L * (x n - y)) -> (forall n, (T <= n)%nat -> exists j, (n <= j < n + N)%nat /\ c <= g j) -> False.
Proof.
  intros x g y T c L N O Hc HL HG VI. destruct (@low g T c N (fun n Hn => proj1 (proj2 (HG n Hn))) VI Hc) as (T1 & m0 & HT1 & Hm0 & ML).
  set (G := L * (x T1 - y)). set (Vb := fsum b2 (map sq (upto g T1)) + G ^ 2 / (1 - b2)).
  assert (Q0 : forall n, 0 <= fsum b2 (map sq (upto g n))) by (intros; apply fsum_nonneg; [lra|apply sq_nonneg]).
  assert (Vb0 : 0 <= G ^ 2 / (1 - b2)) by (apply Rmult_le_pos; [apply pow2_ge_0|apply Rlt_le, Rinv_0_lt_compat; lra]).
  assert (GV : G ^ 2 <= (1 - b2) * Vb) by (unfold Vb; replace ((1 - b2) * (fsum b2 (map sq (upto g T1)) + G ^ 2 / (1 - b2))) with ((1 - b2) * fsum b2 (map sq (upto g T1)) + G ^ 2) by (field; lra); specialize (Q0 T1); nra).
  assert (VP : 0 <= Vb) by (unfold Vb; specialize (Q0 T1); lra). pose proof (sqrt_pos Vb) as SV.
  set (d := lr * (m0 * (1 - b1) / (sqrt Vb + eps))). assert (Hd : 0 < d) by (apply Rmult_lt_0_compat; auto; apply Rdiv_lt_0_compat; [apply Rmult_lt_0_compat; lra|lra]).
  assert (I : forall k, x (T1 + k)%nat <= x T1 - INR k * d /\ fsum b2 (map sq (upto g (T1 + k))) <= Vb).
  { induction k as [|k [IH1 IH2]]; [rewrite Nat.add_0_r; cbn; split; [lra|unfold Vb; lra]|]. rewrite Nat.add_succ_r.
    assert (X0 : INR k * d >= 0) by (apply Rle_ge, Rmult_le_pos; [apply pos_INR|lra]). destruct (HG (T1 + k)%nat ltac:(lia)) as (Y1 & Y2 & Y3).
    assert (GG : g (T1 + k)%nat <= G) by (unfold G; eapply Rle_trans; [exact Y3|]; apply Rmult_le_compat_l; lra).
    assert (VS : fsum b2 (map sq (upto g (S (T1 + k)))) <= Vb). { rewrite upto_S, map_app. cbn [map]. rewrite fsum_snoc. assert (sq (g (T1 + k)%nat) <= G ^ 2) by (unfold sq; apply pow_incr; lra). nra. }
    split; [|exact VS]. rewrite O, S_INR. assert (ST : d <= lr * astep b1 b2 eps (upto g (S (T1 + k)))); [|lra]. unfold d. apply Rmult_le_compat_l; [lra|]. unfold astep. rewrite !faded_eq, map_length, upto_len.
    pose proof (@den_ge1 b1 (T1 + k) ltac:(lra)) as D1. pose proof (@den_ge1 b2 (T1 + k) ltac:(lra)) as D2. pose proof (@den_le b1 (S (T1 + k)) ltac:(lra)) as D3. specialize (ML (S (T1 + k)) ltac:(lia)).
    unfold Rdiv at 1 2. apply Rmult_le_compat; [apply Rmult_le_pos; lra|apply Rlt_le, Rinv_0_lt_compat; lra| |].
    - unfold Rdiv. apply Rmult_le_compat; [lra|lra|exact ML|]. rewrite <- (Rinv_inv (1 - b1)). apply Rinv_le_contravar; lra.
    - apply Rinv_le_contravar; [pose proof (sqrt_pos (fsum b2 (map sq (upto g (S (T1 + k)))) / den b2 (S (T1 + k)))); lra|]. apply Rplus_le_compat_r, sqrt_le_1_alt. apply Rmult_le_reg_r with (den b2 (S (T1 + k))); [lra|]. unfold Rdiv. rewrite Rmult_assoc, Rinv_l by lra. nra. }
  destruct (archimed ((x T1 - y) / d)) as [A _]. assert (XT : 0 < x T1 - y) by (apply HG; auto). assert (D0 : 0 < (x T1 - y) / d) by (now apply Rdiv_lt_0_compat).
  assert (U : (0 <= up ((x T1 - y) / d))%Z) by (apply le_IZR; lra). set (k := Z.to_nat (up ((x T1 - y) / d))). assert (EK : INR k = IZR (up ((x T1 - y) / d))) by (unfold k; rewrite INR_IZR_INZ, Z2Nat.id; auto).
  destruct (I k) as [I1 _]. destruct (HG (T1 + k)%nat ltac:(lia)) as (Y1 & _). assert ((x T1 - y) / d * d < INR k * d) by (apply Rmult_lt_compat_r; [auto|rewrite EK; lra]). unfold Rdiv in H. rewrite Rmult_assoc, Rinv_l in H by lra. lra.
Qed.
Lemma fsum_opp : forall b xs, fsum b (map Ropp xs) = - fsum b xs.
Proof. intros b xs. induction xs as [|x xs IH] using rev_ind; [cbn [map]; rewrite fsum_nil; lra|]. rewrite map_app. cbn [map]. rewrite !fsum_snoc, IH. ring. Qed.
Lemma astep_opp : forall xs, astep b1 b2 eps (map Ropp xs) = - astep b1 b2 eps xs.
Proof.
  intros xs. unfold astep. assert (E : map sq (map Ropp xs) = map sq xs) by (rewrite map_map; apply map_ext; intros; unfold sq; ring). rewrite E, !faded_eq, map_length, fsum_opp. unfold Rdiv. ring.
Qed.
Lemma obeys_opp : forall x g, obeys x g -> obeys (fun n => - x n) (fun n => - g n).
Proof. intros x g O n. rewrite O. assert (E : upto (fun n => - g n) (S n) = map Ropp (upto g (S n))) by (unfold upto; now rewrite map_map). rewrite E, astep_opp. ring. Qed.
(** The gradients push towards y: strongly (by at least c) at least once in N steps, when x is further than rho from it. *)
Definition rho : R := lr * sqrt ((1 - b1) / (1 - b2)).
Definition pushes (x g : nat -> R) (y c L : R) (N : nat) : Prop :=
  (forall n, rho < x n - y -> 0 <= g n <= L * (x n - y)) /\ (forall n, x n - y < - rho -> L * (x n - y) <= g n <= 0) /\
  (forall n, exists j, (n <= j < n + N)%nat /\ (rho < x j - y -> c <= g j) /\ (x j - y < - rho -> g j <= - c)).
Lemma rho_pos : 0 < rho.
Proof. apply Rmult_lt_0_compat; auto. apply sqrt_lt_R0, Rdiv_lt_0_compat; lra. Qed.
Lemma side : forall x g y T, obeys x g -> (forall n, (T <= n)%nat -> rho < Rabs (x n - y)) -> rho < x T - y -> forall n, (T <= n)%nat -> rho < x n - y.
Proof.
  intros x g y T O FA ST n Hn. replace n with (T + (n - T))%nat by lia. induction (n - T)%nat as [|k IH]; [now rewrite Nat.add_0_r|]. rewrite Nat.add_succ_r. pose proof (@move x g (T + k) O) as M. fold rho in M. specialize (FA (S (T + k)) ltac:(lia)).
  revert FA M. unfold Rabs. destruct (Rcase_abs (x (S (T + k)) - y)), (Rcase_abs (x (S (T + k)) - x (T + k)%nat)); lra.
Qed.
Lemma recurs : forall x g y c L N, obeys x g -> 0 < c -> 0 <= L -> pushes x g y c L N -> forall T, exists n, (T <= n)%nat /\ Rabs (x n - y) <= rho.
Proof.
  intros x g y c L N O Hc HL (P1 & P2 & P3) T. apply NNPP. intros NE. assert (FA : forall n, (T <= n)%nat -> rho < Rabs (x n - y)) by (intros n Hn; apply Rnot_le_lt; intros X; apply NE; eauto). pose proof rho_pos as RP.
  destruct (Rle_lt_dec 0 (x T - y)) as [P|Q].
  - assert (ST : rho < x T - y) by (specialize (FA T (le_n _)); rewrite Rabs_pos_eq in FA; auto). pose proof (@side x g y T O FA ST) as SD.
    apply (@pos_impossible x g y T c L N O Hc HL).
    + intros n Hn. split; [specialize (SD n Hn); lra|apply P1; auto].
    + intros n Hn. destruct (P3 n) as (j & Hj & U & _). exists j. split; auto. apply U, SD. lia.
  - assert (FA' : forall n, (T <= n)%nat -> rho < Rabs (- x n - - y)) by (intros n Hn; replace (- x n - - y) with (- (x n - y)) by ring; rewrite Rabs_Ropp; auto).
    assert (ST : rho < - x T - - y) by (specialize (FA T (le_n _)); rewrite Rabs_left in FA by auto; lra). pose proof (@obeys_opp x g O) as O'. pose proof (@side (fun n => - x n) (fun n => - g n) (- y) T O' FA' ST) as SD.
    apply (@pos_impossible (fun n => - x n) (fun n => - g n) (- y) T c L N O' Hc HL).
    + intros n Hn. specialize (SD n Hn). cbv beta in SD |- *. split; [lra|]. assert (x n - y < - rho) by lra. destruct (P2 n H). split; [lra|]. replace (- x n - - y) with (- (x n - y)) by ring. lra.
    + intros n Hn. destruct (P3 n) as (j & Hj & _ & U). exists j. split; auto. specialize (SD j ltac:(lia)). cbv beta in SD |- *. specialize (U ltac:(lra)). lra.
Qed.
End Rec.
