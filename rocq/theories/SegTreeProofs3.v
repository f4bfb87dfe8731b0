(** Proofs about SumTree.inverse_cdf. *)
From Coq Require Import List ZArith Lia Bool Reals Lra.
From Verif Require Import NatDivLia PyCommon CommonProofs SegTreeModel SegTreeSpec SegTreeProofs SegTreeProofs2.
Import ListNotations.
Set Implicit Arguments.

Lemma Rplus_associative : associative Rplus.
Proof. intros x y z. ring. Qed.
Lemma Rplus_unit : unit_of Rplus 0%R.
Proof. intros x. split; ring. Qed.
Lemma Rplus_commutative : commutative Rplus.
Proof. intros x y. ring. Qed.

Notation sum_ok := (tree_ok Rplus 0%R).
Notation lf := (SegTreeProofs.leaf 0%R).
Notation rd := (red Rplus 0%R).

Lemma rsum_reduce : forall l, reduce Rplus 0%R l = rsum l.
Proof.
  induction l as [|x l IH]; [reflexivity|].
  change (x :: l) with ([x] ++ l). rewrite (reduce_app Rplus_associative Rplus_unit). rewrite IH.
  simpl. unfold reduce. simpl. ring.
Qed.

Lemma prefix_red : forall t i, sum_ok t -> i <= capacity t -> prefix_sum (values t) i = rd t 0 i.
Proof.
  intros t i Ht Hi. unfold prefix_sum. rewrite <- rsum_reduce. unfold red. f_equal.
  rewrite (values_map Ht). rewrite firstn_map. f_equal.
  replace (capacity t) with (i + (capacity t - i)) by lia. rewrite seq_app.
  rewrite firstn_app, seq_length. replace (i - i) with 0 by lia. rewrite firstn_O, app_nil_r.
  rewrite <- (seq_length i 0) at 1. apply firstn_all.
Qed.

Lemma rd_S : forall t i, rd t 0 (S i) = (rd t 0 i + lf t i)%R.
Proof.
  intros. replace (S i) with (i + 1) by lia. rewrite (red_add Rplus_associative Rplus_unit).
  rewrite Nat.add_0_l. now rewrite (red_1 Rplus_unit).
Qed.

Lemma descend_spec : forall t, sum_ok t -> forall n l x v,
  l + n = height t - 1 -> x < 2 ^ l ->
  (0 <= v < get 0 (arr t) (level_off l + x))%R ->
  let i := descend n (S l) (level_off l) (level_off l + x) (arr t) v in
  x * 2 ^ n <= i < (x + 1) * 2 ^ n /\
  (rd t 0 i <= rd t 0 (x * 2 ^ n) + v < rd t 0 (S i))%R.
Proof.
  intros t Ht. induction n as [|n IH]; intros l x v Hl Hx Hv.
  - cbn [descend]. replace (level_off l + x - level_off l) with x by lia. cbn [Nat.pow]. rewrite Nat.mul_1_r. split; [lia|].
    rewrite rd_S. replace (lf t x) with (get 0%R (arr t) (level_off l + x)). { lra. }
    unfold SegTreeProofs.leaf. f_equal. f_equal. f_equal. lia.
  - cbn [descend]. cbv zeta.
    replace ((level_off l + x - level_off l) * 2 + level_off (S l)) with (level_off (S l) + 2 * x) by lia.
    replace (level_off (S l) + 2 * x + 1) with (level_off (S l) + (2 * x + 1)) by lia.
    assert (HL : get 0%R (arr t) (level_off (S l) + 2 * x) = rd t (2 * x * 2 ^ n) (2 ^ n)).
    { apply (node_red Rplus_associative Rplus_unit Ht); [lia|rewrite pow2_S; lia]. }
    assert (HR : get 0%R (arr t) (level_off (S l) + (2 * x + 1)) = rd t ((2 * x + 1) * 2 ^ n) (2 ^ n)).
    { apply (node_red Rplus_associative Rplus_unit Ht); [lia|rewrite pow2_S; lia]. }
    assert (HN : get 0%R (arr t) (level_off l + x) = rd t (x * 2 ^ S n) (2 ^ S n)).
    { apply (node_red Rplus_associative Rplus_unit Ht); lia. }
    assert (Hsplit : rd t (x * 2 ^ S n) (2 ^ S n) = (rd t (2 * x * 2 ^ n) (2 ^ n) + rd t ((2 * x + 1) * 2 ^ n) (2 ^ n))%R).
    { replace (2 ^ S n) with (2 ^ n + 2 ^ n) by (rewrite pow2_S; lia).
      rewrite (red_add Rplus_associative Rplus_unit). f_equal; f_equal; lia. }
    assert (Hpre : (rd t 0 ((2 * x + 1) * 2 ^ n) = rd t 0 (x * 2 ^ S n) + rd t (2 * x * 2 ^ n) (2 ^ n))%R).
    { replace ((2 * x + 1) * 2 ^ n) with (x * 2 ^ S n + 2 ^ n) by (rewrite pow2_S; lia).
      rewrite (red_add Rplus_associative Rplus_unit). f_equal. rewrite Nat.add_0_l. f_equal. rewrite pow2_S. lia. }
    destruct (Rgt_dec (get 0%R (arr t) (level_off (S l) + 2 * x)) v) as [Hgt|Hle].
    + destruct (IH (S l) (2 * x) v) as [I1 I2]; [lia|rewrite pow2_S; lia|lra|].
      split. { rewrite pow2_S. lia. }
      replace (x * 2 ^ S n) with (2 * x * 2 ^ n) by (rewrite pow2_S; lia). exact I2.
    + destruct (IH (S l) (2 * x + 1) (v - get 0%R (arr t) (level_off (S l) + 2 * x))%R) as [I1 I2];
        [lia|rewrite pow2_S; lia| |].
      * rewrite HR. rewrite HN, Hsplit in Hv. rewrite HL in *. lra.
      * split. { rewrite pow2_S. lia. }
        rewrite HL in *. rewrite Hpre in I2. lra.
Qed.

Lemma inverse_cdf1_spec : forall t u, sum_ok t -> (0 < rsum (values t))%R -> (0 <= u < 1)%R ->
  let i := inverse_cdf1 t u in
  i < capacity t /\ (0 < nth i (values t) 0)%R /\
  (prefix_sum (values t) i <= u * rsum (values t) < prefix_sum (values t) (S i))%R.
Proof.
  intros t u Ht Hpos Hu i.
  assert (Hroot : root_value 0%R t = rsum (values t)).
  { rewrite (root_reduce Rplus_associative Rplus_unit Ht). apply rsum_reduce. }
  destruct (@descend_spec t Ht (height t - 1) 0 0 (u * root_value 0%R t)%R) as [I1 I2].
  { lia. } { cbn; lia. }
  { change (level_off 0 + 0) with 0. fold (root_value 0%R t). rewrite Hroot. split; [nra|nra]. }
  change (level_off 0 + 0) with 0 in *. change (level_off 0) with 0 in *.
  fold (inverse_cdf1 t u) in I1, I2. fold i in I1, I2.
  rewrite Nat.mul_0_l in I2. rewrite (red_0 Rplus 0%R), Rplus_0_l in I2.
  assert (Hleaf : (0 < lf t i)%R). { rewrite rd_S in I2. lra. }
  assert (Hi : i < capacity t).
  { destruct (Nat.lt_ge_cases i (capacity t)) as [|Hge]; auto. exfalso.
    pose proof Ht as [_ [_ [_ [_ Hpad]]]]. unfold SegTreeProofs.leaf in Hleaf. rewrite Hpad in Hleaf; [lra|auto|lia]. }
  split; [auto|]. split.
  - rewrite (values_nth Ht Hi). auto.
  - rewrite !prefix_red by (auto; lia). rewrite <- Hroot. exact I2.
Qed.

Lemma rsum_app : forall l1 l2, rsum (l1 ++ l2) = (rsum l1 + rsum l2)%R.
Proof. induction l1; intros; simpl; [ring|rewrite IHl1; ring]. Qed.

Lemma prefix_sum_S : forall l i, i < length l -> prefix_sum l (S i) = (prefix_sum l i + nth i l 0)%R.
Proof.
  unfold prefix_sum. induction l as [|x l IH]; intros i Hi; cbn [length] in *; [lia|].
  destruct i as [|i]; [simpl; ring|]. specialize (IH i ltac:(lia)).
  rewrite !firstn_cons. cbn [rsum nth]. rewrite IH. ring.
Qed.

Lemma prefix_sum_mono : forall l i j, (forall x, In x l -> (0 <= x)%R) -> i <= j -> (prefix_sum l i <= prefix_sum l j)%R.
Proof.
  intros l i j Hnn Hij. induction Hij as [|j Hij IH]; [apply Rle_refl|].
  destruct (Nat.lt_ge_cases j (length l)) as [Hlt|Hge].
  - rewrite prefix_sum_S by auto. assert (0 <= nth j l 0)%R by (apply Hnn, nth_In; auto). lra.
  - unfold prefix_sum in *. rewrite (@firstn_all2 _ (S j) l) by lia. rewrite (@firstn_all2 _ j l) in IH by lia. auto.
Qed.

Lemma bracket_unique : forall l i j v, (forall x, In x l -> (0 <= x)%R) ->
  (prefix_sum l i <= v < prefix_sum l (S i))%R -> (prefix_sum l j <= v < prefix_sum l (S j))%R -> i = j.
Proof.
  intros l i j v Hnn Hi Hj. destruct (Nat.lt_trichotomy i j) as [H|[H|H]]; auto; exfalso.
  - pose proof (@prefix_sum_mono l (S i) j Hnn H). lra.
  - pose proof (@prefix_sum_mono l (S j) i Hnn H). lra.
Qed.

Lemma inverse_cdf1_iff : forall t u i, sum_ok t -> (forall x, In x (values t) -> (0 <= x)%R) ->
  (0 < rsum (values t))%R -> (0 <= u < 1)%R -> i < capacity t ->
  (inverse_cdf1 t u = i <-> prefix_sum (values t) i <= u * rsum (values t) < prefix_sum (values t) i + nth i (values t) 0)%R.
Proof.
  intros t u i Ht Hnn Hpos Hu Hi.
  destruct (@inverse_cdf1_spec t u Ht Hpos Hu) as [H1 [H2 H3]].
  rewrite <- prefix_sum_S by (rewrite (values_length Ht); auto).
  split.
  - intros <-. exact H3.
  - intros H. eapply bracket_unique; eauto.
Qed.

(** u = 1: the descent always turns right. *)
Lemma descend_right : forall t, sum_ok t -> (forall i, (0 <= lf t i)%R) -> forall n l x,
  l + n = height t - 1 -> x < 2 ^ l ->
  descend n (S l) (level_off l) (level_off l + x) (arr t) (get 0%R (arr t) (level_off l + x)) = (x + 1) * 2 ^ n - 1.
Proof.
  intros t Ht Hnn. induction n as [|n IH]; intros l x Hl Hx.
  - cbn [descend Nat.pow]. lia.
  - cbn [descend]. cbv zeta.
    replace ((level_off l + x - level_off l) * 2 + level_off (S l)) with (level_off (S l) + 2 * x) by lia.
    replace (level_off (S l) + 2 * x + 1) with (level_off (S l) + (2 * x + 1)) by lia.
    assert (HL : get 0%R (arr t) (level_off (S l) + 2 * x) = rd t (2 * x * 2 ^ n) (2 ^ n)).
    { apply (node_red Rplus_associative Rplus_unit Ht); [lia|rewrite pow2_S; lia]. }
    assert (HR : get 0%R (arr t) (level_off (S l) + (2 * x + 1)) = rd t ((2 * x + 1) * 2 ^ n) (2 ^ n)).
    { apply (node_red Rplus_associative Rplus_unit Ht); [lia|rewrite pow2_S; lia]. }
    assert (HN : get 0%R (arr t) (level_off l + x) = rd t (x * 2 ^ S n) (2 ^ S n)).
    { apply (node_red Rplus_associative Rplus_unit Ht); lia. }
    assert (Hsplit : rd t (x * 2 ^ S n) (2 ^ S n) = (rd t (2 * x * 2 ^ n) (2 ^ n) + rd t ((2 * x + 1) * 2 ^ n) (2 ^ n))%R).
    { replace (2 ^ S n) with (2 ^ n + 2 ^ n) by (rewrite pow2_S; lia).
      rewrite (red_add Rplus_associative Rplus_unit). f_equal; f_equal; lia. }
    assert (Hred_nn : forall k lo, (0 <= rd t lo k)%R).
    { induction k as [|k IHk]; intros lo.
      - rewrite red_0. lra.
      - replace (S k) with (k + 1) by lia. rewrite (red_add Rplus_associative Rplus_unit).
        rewrite (red_1 Rplus_unit). specialize (IHk lo). specialize (Hnn (lo + k)). lra. }
    destruct (Rgt_dec _ _) as [Hgt|Hle].
    + exfalso. rewrite HL, HN, Hsplit in Hgt. specialize (Hred_nn (2 ^ n) ((2 * x + 1) * 2 ^ n)). lra.
    + replace (get 0 (arr t) (level_off l + x) - get 0 (arr t) (level_off (S l) + 2 * x))%R
        with (get 0%R (arr t) (level_off (S l) + (2 * x + 1))).
      2:{ rewrite HL, HR, HN, Hsplit. ring. }
      rewrite IH by (rewrite ?pow2_S; lia). rewrite pow2_S. lia.
Qed.

Lemma inverse_cdf1_one : forall t, sum_ok t -> (forall x, In x (values t) -> (0 <= x)%R) ->
  inverse_cdf1 t 1 = 2 ^ Nat.log2_up (capacity t) - 1.
Proof.
  intros t Ht Hnn. pose proof Ht as [Hc [Hh [Hlen [_ Hpad]]]].
  assert (Hlf : forall i, (0 <= lf t i)%R).
  { intros i. destruct (Nat.lt_ge_cases i (capacity t)) as [Hi|Hi].
    - rewrite <- (values_nth Ht Hi). apply Hnn, nth_In. now rewrite (values_length Ht).
    - destruct (Nat.lt_ge_cases i (2 ^ (height t - 1))) as [Hi2|Hi2].
      + unfold SegTreeProofs.leaf. rewrite Hpad by auto. lra.
      + unfold SegTreeProofs.leaf, get. rewrite nth_overflow; [lra|]. rewrite Hlen.
        replace (2 ^ height t) with (2 * 2 ^ (height t - 1)) by (rewrite <- pow2_S; f_equal; lia).
        unfold level_off. lia. }
  pose proof (@descend_right t Ht Hlf (height t - 1) 0 0) as H.
  unfold inverse_cdf1. rewrite Rmult_1_l. unfold root_value.
  change (level_off 0 + 0) with 0 in H. change (level_off 0) with 0 in H.
  rewrite H by (cbn; lia). replace (height t - 1) with (Nat.log2_up (capacity t)) by lia. lia.
Qed.
