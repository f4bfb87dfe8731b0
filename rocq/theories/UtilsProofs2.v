(** diff_transform, rolling averages, quantile fractions, argmax, safe_sample. *)
From Coq Require Import List ZArith Lia Bool Reals Lra FunctionalExtensionality.
From Verif Require Import PyCommon UtilsModel UtilsSpec.
Import ListNotations.
Set Implicit Arguments.
Local Open Scope R_scope.

Lemma rsum_total : forall l, rsum l = total l.
Proof. induction l; cbn; [auto|]. now rewrite IHl. Qed.
Lemma rsum_app : forall a b, rsum (a ++ b) = rsum a + rsum b.
Proof. induction a; intros; cbn; [lra|]. rewrite IHa. lra. Qed.
Lemma rsum_rev : forall a, rsum (rev a) = rsum a.
Proof. induction a; cbn; auto. rewrite rsum_app, IHa. cbn. lra. Qed.
Lemma rsum_map_plus : forall A (f g : A -> R) l, rsum (map (fun x => f x + g x) l) = rsum (map f l) + rsum (map g l).
Proof. intros. induction l; cbn; [lra|]. rewrite IHl. lra. Qed.
Lemma rsum_map_scal : forall A (f : A -> R) c l, rsum (map (fun x => c * f x) l) = c * rsum (map f l).
Proof. intros. induction l; cbn; [lra|]. rewrite IHl. lra. Qed.

(** * Differences as functions, newest frame first *)
Fixpoint Dm (m : nat) (y : nat -> R) : R :=
  match m with O => y O | S m' => Dm m' (fun k => y k - y (S k)) end.

Lemma Dm_ext : forall m y z, (forall k, (k <= m)%nat -> y k = z k) -> Dm m y = Dm m z.
Proof.
  induction m as [|m IH]; intros y z H; [cbn; auto|]. cbn. apply IH. intros k Hk. rewrite !H by lia. auto.
Qed.
Lemma Dm_minus : forall m y z, Dm m (fun k => y k - z k) = Dm m y - Dm m z.
Proof.
  induction m as [|m IH]; intros y z; [reflexivity|]. cbn [Dm]. rewrite <- IH. apply Dm_ext. intros; lra.
Qed.
Lemma Dm_S : forall m y, Dm (S m) y = Dm m y - Dm m (fun k => y (S k)).
Proof. intros. cbn [Dm]. apply Dm_minus. Qed.
Lemma Dm_invol : forall m y, Dm m (fun k => Dm k y) = y m.
Proof.
  induction m as [|m IH]; intros y; [reflexivity|]. cbn [Dm].
  rewrite (@Dm_ext m _ (fun k => Dm k (fun j => y (S j)))).
  - apply (IH (fun j => y (S j))).
  - intros k _. change (Dm k (fun j => y j - y (S j))) with (Dm (S k) y). rewrite Dm_S. lra.
Qed.

Definition bsum (n : nat) (y : nat -> R) (m : nat) : R := rsum (map (fun k => y k * IZR ((-1) ^ Z.of_nat k * binom m k)) (seq 0 n)).

Lemma binom_0_r : forall n, binom n 0 = 1%Z. Proof. destruct n; reflexivity. Qed.
Lemma binom_S : forall n k, binom (S n) (S k) = (binom n k + binom n (S k))%Z. Proof. reflexivity. Qed.
Lemma pow_m1_S : forall k, ((-1) ^ Z.of_nat (S k) = - (-1) ^ Z.of_nat k)%Z.
Proof. intros. rewrite Nat2Z.inj_succ, Z.pow_succ_r by lia. lia. Qed.

Lemma bsum_S : forall n y m, bsum (S n) y (S m) = bsum (S n) y m - bsum n (fun k => y (S k)) m.
Proof.
  intros n y m. unfold bsum. cbn [seq map rsum]. rewrite <- seq_shift, !map_map, !binom_0_r.
  enough (E : rsum (map (fun x => y (S x) * IZR ((-1) ^ Z.of_nat (S x) * binom (S m) (S x))) (seq 0 n)) =
     rsum (map (fun x => y (S x) * IZR ((-1) ^ Z.of_nat (S x) * binom m (S x))) (seq 0 n))
     - rsum (map (fun k => y (S k) * IZR ((-1) ^ Z.of_nat k * binom m k)) (seq 0 n))) by lra.
  induction (seq 0 n) as [|k l IH]; [cbn; lra|]. cbn [map rsum]. rewrite IH, binom_S, !pow_m1_S, !mult_IZR, plus_IZR, opp_IZR. lra.
Qed.

Lemma bsum_Dm : forall m n y, (m < n)%nat -> bsum n y m = Dm m y.
Proof.
  induction m as [|m IH]; intros n y H; destruct n as [|n]; try lia.
  - unfold bsum. cbn [seq map rsum Dm]. rewrite <- seq_shift, map_map.
    enough (E : rsum (map (fun x => y (S x) * IZR ((-1) ^ Z.of_nat (S x) * binom 0 (S x))) (seq 0 n)) = 0).
    { rewrite E. cbn [Z.of_nat]. rewrite Z.pow_0_r, binom_0_r, Z.mul_1_l. lra. }
    induction (seq 0 n) as [|k l IH]; [reflexivity|]. cbn [map rsum]. rewrite IH. cbn [binom]. rewrite Z.mul_0_r. lra.
  - rewrite bsum_S, !IH by lia. now rewrite Dm_S.
Qed.

(** Lists. *)
Lemma diffs_length : forall l, length (diffs l) = (length l - 1)%nat.
Proof. induction l as [|x l IH]; [reflexivity|]. destruct l as [|y l]; [reflexivity|]. change (S (length (diffs (y :: l))) = (S (length (y :: l)) - 1)%nat). rewrite IH. cbn. lia. Qed.
Lemma diffs_nth : forall l i, (S i < length l)%nat -> nth i (diffs l) 0 = nth (S i) l 0 - nth i l 0.
Proof.
  induction l as [|x l IH]; intros i H; [cbn in H; lia|]. destruct l as [|y l]; [cbn in H; lia|].
  destruct i as [|i]; [reflexivity|]. change (nth i (diffs (y :: l)) 0 = nth (S i) (y :: l) 0 - nth i (y :: l) 0). apply IH. cbn in *. lia.
Qed.
Lemma iter_comm : forall A (f : A -> A) n x, Nat.iter n f (f x) = f (Nat.iter n f x).
Proof. intros A f. induction n; intros; [reflexivity|]. change (f (Nat.iter n f (f x)) = f (f (Nat.iter n f x))). now rewrite IHn. Qed.
Lemma iter_S : forall A (f : A -> A) n x, Nat.iter (S n) f x = Nat.iter n f (f x).
Proof. intros. rewrite iter_comm. reflexivity. Qed.

(** [nth] counted from the newest frame. *)
Definition newest (l : list R) (k : nat) : R := nth (length l - 1 - k) l 0.

Lemma last_nth : forall (l : list R) d, last l d = nth (length l - 1) l d.
Proof.
  induction l as [|x l IH]; intros d; [reflexivity|]. destruct l as [|y l]; [reflexivity|].
  change (last (y :: l) d = nth (length (x :: y :: l) - 1) (x :: y :: l) d). rewrite IH.
  replace (length (x :: y :: l) - 1)%nat with (S (length (y :: l) - 1)) by (cbn; lia). reflexivity.
Qed.

Lemma last_diff_Dm : forall m l, (m < length l)%nat -> last_diff m l = Dm m (newest l).
Proof.
  induction m as [|m IH]; intros l H.
  - unfold last_diff. cbn. rewrite last_nth. unfold newest. now rewrite Nat.sub_0_r.
  - unfold last_diff. rewrite iter_S. fold (last_diff m (diffs l)). rewrite IH by (rewrite diffs_length; lia). cbn [Dm]. apply Dm_ext.
    intros k Hk. unfold newest. rewrite diffs_length, diffs_nth by lia. f_equal; f_equal; lia.
Qed.

Lemma map_seq_rev : forall A (f : nat -> A) n, map f (seq 0 n) = rev (map (fun k => f (n - 1 - k)%nat) (seq 0 n)).
Proof.
  intros A f n. apply nth_ext with (d := f 0%nat) (d' := f 0%nat); [rewrite rev_length, !map_length; auto|].
  intros i Hi. rewrite map_length, seq_length in Hi. rewrite rev_nth by (rewrite map_length, seq_length; auto). rewrite map_length, seq_length.
  rewrite (map_nth f (seq 0 n) 0%nat i). rewrite seq_nth by auto.
  set (g := fun k => f (n - 1 - k)%nat). rewrite (nth_indep (map g (seq 0 n)) (f 0%nat) (g 0%nat)) by (rewrite map_length, seq_length; lia).
  rewrite (map_nth g (seq 0 n) 0%nat). rewrite seq_nth by lia. unfold g. f_equal. lia.
Qed.

Lemma nth_map_seq : forall A (f : nat -> A) n i d, (i < n)%nat -> nth i (map f (seq 0 n)) d = f i.
Proof.
  intros A f n i d H. rewrite (nth_indep _ d (f 0%nat)) by (rewrite map_length, seq_length; auto).
  rewrite (map_nth f (seq 0 n) 0%nat i), seq_nth by auto. reflexivity.
Qed.

Lemma diff_transform_nth : forall x, (1 <= length x)%nat -> exists y, diff_transform x = Ok y /\ length y = length x /\
  forall j, (j < length x)%nat -> nth j y 0 = Dm (length x - 1 - j) (newest x).
Proof.
  intros x Hx. unfold diff_transform, diff_transform_matrix. destruct (Nat.ltb_spec (length x) 1); [lia|]. cbn [bind]. eexists. split; [reflexivity|].
  unfold vecmat. split; [rewrite map_length, seq_length; auto|]. intros j Hj. rewrite nth_map_seq by auto.
  rewrite <- (@bsum_Dm (length x - 1 - j) (length x)) by lia. unfold bsum. rewrite (@map_seq_rev _ _ (length x)), rsum_rev. f_equal.
  apply map_ext_in. intros k Hk. apply in_seq in Hk. rewrite (nth_map_seq (fun i => map (fun j0 => dtm_entry (length x) i j0) (seq 0 (length x)))) by lia.
  rewrite nth_map_seq by lia. unfold newest, dtm_entry. f_equal. replace (length x - 1 - (length x - 1 - k))%nat with k by lia. reflexivity.
Qed.

Lemma diff_transform_spec : forall x, x <> [] -> exists y, diff_transform x = Ok y /\ length y = length x /\
  (forall j, (j < length x)%nat -> nth j y 0 = last_diff (length x - 1 - j) x) /\ diff_transform y = Ok x.
Proof.
  intros x Hx. assert (HL : (1 <= length x)%nat) by (destruct x; [congruence|cbn; lia]).
  destruct (diff_transform_nth x HL) as [y [E [Ly Hy]]]. exists y. split; [auto|]. split; [auto|]. split.
  - intros j Hj. rewrite Hy by auto. symmetry. apply last_diff_Dm. lia.
  - destruct (diff_transform_nth y ltac:(lia)) as [z [Ez [Lz Hz]]]. rewrite Ez. f_equal. apply nth_ext with (d := 0) (d' := 0); [lia|].
    intros j Hj. rewrite Hz by lia. rewrite Ly. rewrite (@Dm_ext _ _ (fun k => Dm k (newest x))).
    + rewrite Dm_invol. unfold newest. f_equal. lia.
    + intros k Hk. unfold newest at 1. rewrite Ly, Hy by lia. f_equal. lia.
Qed.

(** * Averages *)
Lemma updates_app : forall T (u : T -> R -> outcome T) a b t, updates u t (a ++ b) = bind (updates u t a) (fun t' => updates u t' b).
Proof. intros T u. induction a; intros b t; [reflexivity|]. cbn. destruct (u t a); cbn; auto. Qed.

Lemma lastn_all : forall A n (l : list A), (length l <= n)%nat -> lastn n l = l.
Proof. intros. unfold lastn. replace (length l - n)%nat with 0%nat by lia. reflexivity. Qed.
Lemma lastn_length : forall A n (l : list A), length (lastn n l) = Nat.min n (length l).
Proof. intros. unfold lastn. rewrite skipn_length. lia. Qed.
Lemma skipn_S_cons : forall A k (l : list A) y q, skipn k l = y :: q -> skipn (S k) l = q.
Proof. intros A. induction k; intros [|a l] y q H; try discriminate; [cbn in *; congruence|]. cbn [skipn] in H. exact (IHk _ _ _ H). Qed.
Lemma lastn_snoc : forall A n (l : list A) x, (n <= length l)%nat -> (1 <= n)%nat -> exists y q, lastn n l = y :: q /\ lastn n (l ++ [x]) = q ++ [x].
Proof.
  intros A n l x H Hn. pose proof (lastn_length n l) as L. unfold lastn in *. destruct (skipn (length l - n) l) as [|y q] eqn:E; [cbn in L; lia|].
  exists y, q. split; auto. rewrite app_length. cbn [length]. replace (length l + 1 - n)%nat with (S (length l - n)) by lia.
  rewrite skipn_app. replace (S (length l - n) - length l)%nat with 0%nat by lia. cbn [skipn]. f_equal.
  now apply skipn_S_cons with y.
Qed.

Lemma total_app : forall a b, total (a ++ b) = total a + total b.
Proof. intros. rewrite <- !rsum_total. apply rsum_app. Qed.

Lemma rolling_inv : forall n xs, (1 <= n)%nat -> exists r, updates rolling_update (rolling_new n) xs = Ok r /\
  ro_n r = n /\ ro_q r = lastn n xs /\ (xs = [] -> ro_v r = 0) /\ (xs <> [] -> ro_v r = mean (lastn n xs)).
Proof.
  intros n xs Hn. induction xs as [|x xs IH] using rev_ind.
  - exists (rolling_new n). cbn. repeat split; auto. congruence.
  - destruct IH as [r [E [H1 [H2 [H3 H4]]]]]. rewrite updates_app, E. cbn [bind updates]. unfold rolling_update. rewrite H1, H2, lastn_length.
    assert (NE : xs ++ [x] <> []) by (destruct xs; discriminate).
    destruct (Nat.eqb_spec (Nat.min n (length xs)) n) as [Q|Q].
    + destruct (@lastn_snoc _ n xs x ltac:(lia) Hn) as [y [q [E1 E2]]]. rewrite E1. cbn [bind]. eexists. split; [reflexivity|]. cbn [ro_n ro_q ro_v].
      split; [auto|]. split; [auto|]. split; [congruence|]. intros _. rewrite E2. assert (Hx : xs <> []) by (intros ->; cbn in Q; lia).
      rewrite (H4 Hx), E1. assert (LL : length (y :: q) = n) by (rewrite <- E1, lastn_length; lia).
      unfold mean. rewrite LL. rewrite app_length. cbn [length] in *. replace (length q + 1)%nat with n by lia. rewrite total_app.
      change (total (y :: q)) with (y + total q). change (total [x]) with (x + 0). field. apply not_0_INR. lia.
    + cbn [bind]. eexists. split; [reflexivity|]. cbn [ro_n ro_q ro_v]. split; [auto|].
      rewrite (lastn_all (n := n) xs) in * by lia. rewrite lastn_all by (rewrite app_length; cbn; lia).
      split; [auto|]. split; [congruence|]. intros _. unfold mean. rewrite app_length, total_app. change (total [x]) with (x + 0). cbn [length].
      destruct xs as [|x0 xs'].
      * rewrite H3 by auto. cbn. field.
      * rewrite H4 by congruence. unfold mean. rewrite plus_INR. cbn [INR]. set (m := length (x0 :: xs')). assert (0 < INR m) by (apply lt_0_INR; unfold m; cbn; lia).
        field. lra.
Qed.

Lemma total_bounds : forall l lo hi, (forall x, In x l -> lo <= x <= hi) -> lo * INR (length l) <= total l <= hi * INR (length l).
Proof.
  induction l as [|x l IH]; intros lo hi H; [cbn; lra|]. change (length (x :: l)) with (S (length l)). rewrite S_INR. cbn [total fold_right]. fold (total l).
  specialize (IH lo hi (fun y Hy => H y (or_intror Hy))). specialize (H x (or_introl eq_refl)). lra.
Qed.
Lemma mean_between : forall l, l <> [] -> between l (mean l).
Proof.
  intros l Hl lo hi H. pose proof (@total_bounds l lo hi H). assert (0 < INR (length l)) by (apply lt_0_INR; destruct l; [congruence|cbn; lia]).
  unfold mean. split.
  - apply (Rmult_le_reg_r (INR (length l))); auto. unfold Rdiv. rewrite Rmult_assoc, Rinv_l by lra. lra.
  - apply (Rmult_le_reg_r (INR (length l))); auto. unfold Rdiv. rewrite Rmult_assoc, Rinv_l by lra. lra.
Qed.
Lemma lastn_in : forall A n (l : list A) x, In x (lastn n l) -> In x l.
Proof. intros A n l x H. unfold lastn in H. rewrite <- (firstn_skipn (length l - n) l). apply in_or_app. now right. Qed.

Lemma rolling_spec : forall n xs, (1 <= n)%nat -> xs <> [] -> exists r, updates rolling_update (rolling_new n) xs = Ok r /\
  ro_v r = mean (lastn n xs) /\ between (lastn n xs) (ro_v r).
Proof.
  intros n xs Hn Hx. destruct (rolling_inv xs Hn) as [r [E [_ [_ [_ H]]]]]. exists r. rewrite (H Hx). split; [auto|]. split; [auto|].
  apply mean_between. intros C. apply (f_equal (@length R)) in C. rewrite lastn_length in C. destruct xs; [congruence|]. cbn in C. lia.
Qed.

Lemma expavg_inv : forall n xs, (1 <= n)%nat -> exists e, updates expavg_update (expavg_new n) xs = Ok e /\
  xa_n e = n /\ xa_len e = Nat.min n (length xs) /\ (xs = [] -> xa_v e = 0) /\ (xs <> [] -> (length xs <= n)%nat -> xa_v e = mean xs) /\
  (xs <> [] -> between xs (xa_v e)).
Proof.
  intros n xs Hn. induction xs as [|x xs IH] using rev_ind.
  - exists (expavg_new n). cbn. rewrite Nat.min_0_r. repeat split; auto; congruence.
  - destruct IH as [e [E [H1 [H2 [H3 [H4 H5]]]]]]. rewrite updates_app, E. cbn [bind updates]. unfold expavg_update. rewrite H1, H2.
    assert (NE : xs ++ [x] <> []) by (destruct xs; discriminate). set (len := if Nat.ltb (Nat.min n (length xs)) n then S (Nat.min n (length xs)) else Nat.min n (length xs)).
    assert (EL : len = Nat.min n (length xs + 1)) by (unfold len; destruct (Nat.ltb_spec (Nat.min n (length xs)) n); lia).
    destruct (Nat.eqb_spec len 0); [lia|]. cbn [bind]. eexists. split; [reflexivity|]. cbn [xa_n xa_len xa_v]. rewrite app_length. cbn [length].
    split; [auto|]. split; [auto|]. split; [congruence|]. split.
    + intros _ Hl. assert (len = S (length xs)) as -> by lia. destruct xs as [|x0 xs'].
      * rewrite H3 by auto. unfold mean. cbn. field.
      * rewrite H4 by (try congruence; lia). unfold mean. rewrite app_length, total_app. change (total [x]) with (x + 0). cbn [length]. rewrite plus_INR. cbn [INR].
        set (m := length xs'). assert (0 <= INR m) by apply pos_INR. destruct m; cbn [INR] in *; field; lra.
    + intros _ lo hi Hb. assert (HL : 1 <= INR len) by (change 1 with (INR 1); apply le_INR; lia).
      assert (Hx : lo <= x <= hi) by (apply Hb; apply in_or_app; right; now left). destruct xs as [|x0 xs'].
      * rewrite H3 by auto. assert (len = 1%nat) as -> by (cbn [length] in EL; lia). cbn [INR]. lra.
      * assert (Hv : lo <= xa_v e <= hi). { apply H5; [congruence|]. intros y Hy. apply Hb. apply in_or_app. now left. }
        set (q := / INR len). assert (0 < q <= 1). { unfold q. split; [apply Rinv_0_lt_compat; lra|]. rewrite <- Rinv_1. apply Rinv_le_contravar; lra. }
        unfold Rdiv. fold q. nra.
Qed.

Lemma expavg_spec : forall n xs, (1 <= n)%nat -> xs <> [] -> exists e, updates expavg_update (expavg_new n) xs = Ok e /\
  ((length xs <= n)%nat -> xa_v e = mean xs) /\ between xs (xa_v e) /\
  (forall x, (n <= length xs)%nat -> exists e', updates expavg_update (expavg_new n) (xs ++ [x]) = Ok e' /\ xa_v e' = xa_v e + (x - xa_v e) / INR n).
Proof.
  intros n xs Hn Hx. destruct (expavg_inv xs Hn) as [e [E [H1 [H2 [_ [H4 H5]]]]]]. exists e. split; [auto|]. split; [auto|]. split; [auto|].
  intros x Hl. rewrite updates_app, E. cbn [bind updates]. unfold expavg_update. rewrite H1, H2. rewrite Nat.min_l by auto. rewrite Nat.ltb_irrefl.
  destruct (Nat.eqb_spec n 0); [lia|]. cbn [bind]. eexists. split; reflexivity.
Qed.

(** * Quantile fractions *)
Lemma cumsum_length : forall l a, length (cumsum_from a l) = length l.
Proof. induction l; intros; cbn; auto. Qed.
Lemma cumsum_nth : forall l a i, (i < length l)%nat -> nth i (cumsum_from a l) 0 = a + rsum (firstn (S i) l).
Proof.
  induction l as [|x l IH]; intros a i H; [cbn in H; lia|]. destruct i as [|i]; cbn [cumsum_from nth firstn rsum]; [lra|].
  rewrite IH by (cbn in H; lia). cbn [firstn]. destruct l; cbn [rsum]; lra.
Qed.
Lemma rsum_nonneg : forall l, (forall x, In x l -> 0 <= x) -> 0 <= rsum l.
Proof. induction l as [|x l IH]; intros H; cbn; [lra|]. pose proof (H x (or_introl eq_refl)). specialize (IH (fun y Hy => H y (or_intror Hy))). lra. Qed.
Lemma rsum_pos : forall l, l <> [] -> (forall x, In x l -> 0 < x) -> 0 < rsum l.
Proof.
  intros [|x l] Hl H; [congruence|]. cbn. pose proof (H x (or_introl eq_refl)). assert (0 <= rsum l); [|lra].
  apply rsum_nonneg. intros y Hy. apply Rlt_le, H. now right.
Qed.
Lemma rsum_firstn_skipn : forall i l, rsum l = rsum (firstn i l) + rsum (skipn i l).
Proof. intros. rewrite <- rsum_app, firstn_skipn. auto. Qed.
Lemma rsum_map_div : forall l c, rsum (map (fun u => u / c) l) = rsum l / c.
Proof. induction l; intros; cbn; [lra|]. rewrite IHl. lra. Qed.

Lemma quantiles_uniform_nth : forall us i, (i < length us)%nat -> nth i (quantiles_uniform us) 0 = rsum (firstn (S i) us) / rsum us.
Proof. intros us i H. unfold quantiles_uniform. rewrite cumsum_nth by (rewrite map_length; auto). rewrite firstn_map, rsum_map_div. lra. Qed.
Lemma quantiles_uniform_length : forall us, length (quantiles_uniform us) = length us.
Proof. intros. unfold quantiles_uniform. now rewrite cumsum_length, map_length. Qed.

Lemma in_firstn : forall A i (l : list A) x, In x (firstn i l) -> In x l.
Proof. intros A i l x H. rewrite <- (firstn_skipn i l). apply in_or_app. now left. Qed.
Lemma in_skipn : forall A i (l : list A) x, In x (skipn i l) -> In x l.
Proof. intros A i l x H. rewrite <- (firstn_skipn i l). apply in_or_app. now right. Qed.

Lemma partial_sum_diff : forall us i j, (i < j < length us)%nat -> exists d, d <> [] /\ (forall x, In x d -> In x us) /\ rsum (firstn (S j) us) = rsum (firstn (S i) us) + rsum d.
Proof.
  intros us i j H. exists (skipn (S i) (firstn (S j) us)). split; [|split].
  - intros C. apply (f_equal (@length R)) in C. rewrite skipn_length, firstn_length in C. cbn [length] in C. lia.
  - intros x Hx. apply in_skipn in Hx. now apply in_firstn in Hx.
  - rewrite (rsum_firstn_skipn (S i) (firstn (S j) us)). rewrite firstn_firstn, Nat.min_l by lia. auto.
Qed.

Lemma quantiles_uniform_spec : forall us, (forall u, In u us -> 0 <= u) -> 0 < rsum us ->
  length (quantiles_uniform us) = length us /\ nondecreasing (quantiles_uniform us) /\ (forall q, In q (quantiles_uniform us) -> 0 <= q <= 1) /\
  last (quantiles_uniform us) 0 = 1 /\
  (strictly_increasing (quantiles_uniform us) /\ (forall q, In q (quantiles_uniform us) -> 0 < q) <-> (forall u, In u us -> 0 < u)).
Proof.
  intros us Hn Hp. pose proof (quantiles_uniform_length us) as L.
  assert (Hi : 0 < / rsum us) by (apply Rinv_0_lt_compat; auto).
  split; [auto|]. split; [|split; [|split]].
  - intros i j H. rewrite L in H. rewrite !quantiles_uniform_nth by lia. destruct (@partial_sum_diff us i j H) as [d [_ [Hd ->]]].
    assert (0 <= rsum d) by (apply rsum_nonneg; auto). unfold Rdiv. nra.
  - intros q Hq. apply (In_nth _ _ 0) in Hq. destruct Hq as [i [Hi' <-]]. rewrite L in Hi'. rewrite quantiles_uniform_nth by auto.
    assert (0 <= rsum (firstn (S i) us)) by (apply rsum_nonneg; intros x Hx; apply Hn; now apply in_firstn in Hx).
    assert (0 <= rsum (skipn (S i) us)) by (apply rsum_nonneg; intros x Hx; apply Hn; now apply in_skipn in Hx).
    rewrite (rsum_firstn_skipn (S i) us) in *. set (a := rsum (firstn (S i) us)) in *. set (b := rsum (skipn (S i) us)) in *.
    split; [unfold Rdiv; nra|]. apply (Rmult_le_reg_r (a + b)); auto. unfold Rdiv. rewrite Rmult_assoc, Rinv_l by lra. lra.
  - rewrite last_nth, L. destruct us as [|u us]; [cbn in Hp; lra|]. rewrite quantiles_uniform_nth by (cbn; lia).
    replace (S (length (u :: us) - 1)) with (length (u :: us)) by (cbn; lia). rewrite firstn_all. field. lra.
  - split.
    + intros [HS HQ] u Hu. apply (In_nth _ _ 0) in Hu. destruct Hu as [i [Hi' <-]].
      assert (E : nth i us 0 = rsum (firstn (S i) us) - rsum (firstn i us)).
      { clear -Hi'. revert i Hi'. induction us as [|u us IH]; intros i H; [cbn in H; lia|]. destruct i as [|i]; [cbn; lra|].
        cbn [nth]. rewrite IH by (cbn in H; lia). change (firstn (S (S i)) (u :: us)) with (u :: firstn (S i) us). change (firstn (S i) (u :: us)) with (u :: firstn i us). cbn [rsum]. lra. }
      rewrite E. destruct i as [|i].
      * specialize (HQ (nth 0 (quantiles_uniform us) 0) ltac:(apply nth_In; lia)). rewrite quantiles_uniform_nth in HQ by auto. cbn [firstn rsum] in *.
        unfold Rdiv in HQ. cbn. nra.
      * specialize (HS i (S i) ltac:(lia)). rewrite !quantiles_uniform_nth in HS by lia. unfold Rdiv in HS. nra.
    + intros Hpos. split.
      * intros i j H. rewrite L in H. rewrite !quantiles_uniform_nth by lia. destruct (@partial_sum_diff us i j H) as [d [Hne [Hd ->]]].
        assert (0 < rsum d) by (apply rsum_pos; auto). unfold Rdiv. nra.
      * intros q Hq. apply (In_nth _ _ 0) in Hq. destruct Hq as [i [Hi' <-]]. rewrite L in Hi'. rewrite quantiles_uniform_nth by auto.
        assert (0 < rsum (firstn (S i) us)). { apply rsum_pos; [destruct us; [cbn in Hi'; lia|discriminate]|]. intros x Hx. apply Hpos. now apply in_firstn in Hx. }
        unfold Rdiv. nra.
Qed.

Lemma quantiles_spec : forall n, (1 <= n)%nat -> length (quantiles n) = n /\ strictly_increasing (quantiles n) /\
  (forall i, (i < n)%nat -> nth i (quantiles n) 0 = INR i / INR n) /\ (forall q, In q (quantiles n) -> 0 <= q < 1).
Proof.
  intros n Hn. assert (L : length (quantiles n) = n) by (unfold quantiles; now rewrite map_length, seq_length).
  assert (E : forall i, (i < n)%nat -> nth i (quantiles n) 0 = INR i / INR n) by (intros i Hi; unfold quantiles; now rewrite (nth_map_seq (fun k => INR k / INR n))).
  assert (P : 0 < INR n) by (apply lt_0_INR; lia). assert (IP : 0 < / INR n) by (now apply Rinv_0_lt_compat).
  split; [auto|]. split; [|split; [auto|]].
  - intros i j H. rewrite L in H. rewrite !E by lia. unfold Rdiv. apply Rmult_lt_compat_r; auto. apply lt_INR. lia.
  - intros q Hq. apply (In_nth _ _ 0) in Hq. destruct Hq as [i [Hi <-]]. rewrite L in Hi. rewrite E by auto. split; [unfold Rdiv; pose proof (pos_INR i); nra|].
    apply (Rmult_lt_reg_r (INR n)); auto. unfold Rdiv. rewrite Rmult_assoc, Rinv_l by lra. apply lt_INR in Hi. lra.
Qed.

(** * argmax *)
Lemma rmax_list_ge : forall l x, x <= rmax_list x l /\ (forall y, In y l -> y <= rmax_list x l).
Proof.
  induction l as [|z l IH]; intros x; [cbn; split; [lra|tauto]|]. cbn. destruct (IH (Rmax x z)) as [H1 H2]. pose proof (Rmax_l x z). pose proof (Rmax_r x z).
  split; [lra|]. intros y [<-|Hy]; [lra|auto].
Qed.
Lemma rmax_list_in : forall l x, In (rmax_list x l) (x :: l).
Proof.
  induction l as [|z l IH]; intros x; [cbn; auto|]. cbn [rmax_list]. destruct (IH (Rmax x z)) as [E|H].
  - rewrite <- E. unfold Rmax. destruct (Rle_dec x z); cbn; auto.
  - right. now right.
Qed.

Lemma first_argmax_spec : forall l pre best bv, (best < length pre)%nat -> nth best pre 0 = bv -> (forall j, (j < length pre)%nat -> nth j pre 0 <= bv) ->
  maximal_at (pre ++ l) (first_argmax l (length pre) best bv).
Proof.
  induction l as [|y l IH]; intros pre best bv H1 H2 H3; cbn [first_argmax].
  - rewrite app_nil_r. split; [auto|]. intros j Hj. rewrite H2. auto.
  - replace (pre ++ y :: l) with ((pre ++ [y]) ++ l) by now rewrite <- app_assoc. replace (S (length pre)) with (length (pre ++ [y])) by (rewrite app_length; cbn; lia).
    assert (B : forall j, (j < length (pre ++ [y]))%nat -> nth j (pre ++ [y]) 0 = nth j pre 0 /\ (j < length pre)%nat \/ nth j (pre ++ [y]) 0 = y /\ j = length pre).
    { intros j Hj. rewrite app_length in Hj. cbn in Hj. destruct (Nat.lt_ge_cases j (length pre)); [left; rewrite app_nth1 by auto; auto|].
      right. assert (j = length pre) as -> by lia. rewrite app_nth2, Nat.sub_diag by lia. auto. }
    destruct (Rlt_dec bv y) as [Hlt|Hge]; apply IH.
    + rewrite app_length; cbn; lia.
    + rewrite app_nth2, Nat.sub_diag by lia. auto.
    + intros j Hj. destruct (B j Hj) as [[-> Hj']|[-> _]]; [specialize (H3 j Hj'); lra|lra].
    + rewrite app_length; lia.
    + rewrite app_nth1 by auto. auto.
    + intros j Hj. destruct (B j Hj) as [[-> Hj']|[-> _]]; [auto|lra].
Qed.

Lemma jnp_argmax_spec : forall l, l <> [] -> maximal_at l (jnp_argmax l).
Proof.
  intros [|x l] H; [congruence|]. unfold jnp_argmax. apply (@first_argmax_spec l [x] 0%nat x); cbn; auto. intros [|j] Hj; [lra|lia].
Qed.

Lemma argmax_logits_nth : forall arr gs m i, length gs = length arr -> (i < length arr)%nat ->
  nth i (map (fun lg => fst lg + snd lg) (combine (map (fun y => if Req_EM_T y m then 50 else -50) arr) gs)) 0 = (if Req_EM_T (nth i arr 0) m then 50 else -50) + nth i gs 0.
Proof.
  induction arr as [|y arr IH]; intros gs m i HL Hi; [cbn in Hi; lia|]. destruct gs as [|g gs]; [discriminate|]. destruct i as [|i]; cbn [map combine nth fst snd]; auto.
  apply IH; cbn in *; lia.
Qed.

Lemma argmax_spec : forall arr gs, arr <> [] -> length gs = length arr -> (forall g, In g gs -> -50 < g < 50) ->
  exists i, argmax arr gs = Ok i /\ maximal_at arr i.
Proof.
  intros arr gs HA HL HG. unfold argmax. destruct arr as [|x l]; [congruence|]. set (m := rmax_list x l). set (arr := x :: l) in *. eexists. split; [reflexivity|].
  set (lg := map (fun lg => fst lg + snd lg) (combine (map (fun y => if Req_EM_T y m then 50 else -50) arr) gs)).
  assert (LL : length lg = length arr) by (unfold lg; rewrite map_length, combine_length, map_length; lia).
  assert (LN : lg <> []) by (intros C; rewrite C in LL; discriminate). destruct (jnp_argmax_spec LN) as [H1 H2]. set (i := jnp_argmax lg) in *. rewrite LL in *.
  assert (MX : forall j, (j < length arr)%nat -> nth j arr 0 <= m).
  { intros j Hj. destruct (rmax_list_ge l x) as [M1 M2]. fold m in M1, M2. pose proof (nth_In arr 0 Hj) as Hin. destruct Hin as [<-|Hin]; auto. }
  assert (MI : In m arr) by apply rmax_list_in. apply (In_nth _ _ 0) in MI. destruct MI as [k [Hk Ek]].
  assert (GB : forall j, (j < length arr)%nat -> -50 < nth j gs 0 < 50) by (intros j Hj; apply HG, nth_In; lia).
  split; auto. assert (nth i arr 0 = m) as ->; [|auto].
  specialize (H2 k Hk). unfold lg in H2. rewrite !argmax_logits_nth in H2 by auto. rewrite Ek in H2.
  destruct (Req_EM_T m m) as [_|]; [|congruence]. destruct (Req_EM_T (nth i arr 0) m); auto. pose proof (GB k Hk). pose proof (GB i H1). lra.
Qed.

(** Every maximiser is selected by some admissible noise. *)
Lemma argmax_all : forall arr i, maximal_at arr i -> exists gs, length gs = length arr /\ (forall g, In g gs -> -50 < g < 50) /\ argmax arr gs = Ok i.
Proof.
  intros arr i [Hi HM]. exists (map (fun k => if Nat.eqb k i then 1 else 0) (seq 0 (length arr))). split; [now rewrite map_length, seq_length|]. split.
  - intros g Hg. apply in_map_iff in Hg. destruct Hg as [k [<- _]]. destruct (Nat.eqb k i); lra.
  - unfold argmax. destruct arr as [|x l]; [cbn in Hi; lia|]. set (m := rmax_list x l). set (arr := x :: l) in *. f_equal.
    set (gs := map (fun k => if Nat.eqb k i then 1 else 0) (seq 0 (length arr))). assert (LG : length gs = length arr) by (unfold gs; now rewrite map_length, seq_length).
    set (lg := map (fun lg => fst lg + snd lg) (combine (map (fun y => if Req_EM_T y m then 50 else -50) arr) gs)).
    assert (LL : length lg = length arr) by (unfold lg; rewrite map_length, combine_length, map_length; lia).
    assert (LN : lg <> []) by (intros C; rewrite C in LL; discriminate). destruct (jnp_argmax_spec LN) as [H1 H2]. rewrite LL in *.
    assert (Em : nth i arr 0 = m).
    { apply Rle_antisym.
      - destruct (rmax_list_ge l x) as [M1 M2]. fold m in M1, M2. pose proof (nth_In arr 0 Hi) as Hin. destruct Hin as [<-|Hin]; auto.
      - pose proof (rmax_list_in l x) as MI. fold m arr in MI. apply (In_nth _ _ 0) in MI. destruct MI as [k [Hk <-]]. auto. }
    specialize (H2 i Hi). set (i0 := jnp_argmax lg) in *. unfold lg in H2. rewrite !argmax_logits_nth in H2 by auto. rewrite Em in H2.
    destruct (Req_EM_T m m) as [_|]; [|congruence]. unfold gs in H2. rewrite !(nth_map_seq (fun k => if Nat.eqb k i then 1 else 0)) in H2 by auto.
    rewrite Nat.eqb_refl in H2. destruct (Nat.eqb_spec i0 i); auto. exfalso. destruct (Req_EM_T (nth i0 arr 0) m); lra.
Qed.

Lemma nth_map_opp : forall arr j, nth j (map Ropp arr) 0 = - nth j arr 0.
Proof. induction arr; intros [|j]; cbn; auto; lra. Qed.
Lemma argmin_spec : forall arr gs, arr <> [] -> length gs = length arr -> (forall g, In g gs -> -50 < g < 50) ->
  exists i, argmin arr gs = Ok i /\ minimal_at arr i.
Proof.
  intros arr gs HA HL HG. unfold argmin. destruct (@argmax_spec (map Ropp arr) gs) as [i [E [H1 H2]]]; auto.
  - destruct arr; [congruence|discriminate].
  - now rewrite map_length.
  - exists i. split; auto. rewrite map_length in *. split; auto. intros j Hj. specialize (H2 j Hj). rewrite !nth_map_opp in H2. lra.
Qed.
Lemma argmin_all : forall arr i, minimal_at arr i -> exists gs, length gs = length arr /\ (forall g, In g gs -> -50 < g < 50) /\ argmin arr gs = Ok i.
Proof.
  intros arr i [Hi HM]. destruct (@argmax_all (map Ropp arr) i) as [gs [H1 H2]].
  - split; rewrite map_length; auto. intros j Hj. rewrite !nth_map_opp. specialize (HM j Hj). lra.
  - rewrite map_length in H1. exists gs. auto.
Qed.

(** * safe_sample *)
Lemma ln_bound : forall x, 0 <= x -> 0 <= ln (1 + x) <= x.
Proof.
  intros x Hx. split.
  - destruct (Req_dec x 0) as [->|]; [rewrite Rplus_0_r, ln_1; lra|]. rewrite <- ln_1. apply Rlt_le, ln_increasing; lra.
  - pose proof (exp_ineq1_le x) as E. destruct (Req_dec x 0) as [->|]; [rewrite Rplus_0_r, ln_1; lra|].
    rewrite <- (ln_exp x) at 2. destruct E as [E|E]; [apply Rlt_le, ln_increasing; lra|rewrite E; lra].
Qed.

Lemma safe_sample_box_spec : forall low high u, low <= 0 <= high -> 0 <= u < 1 -> low <= safe_sample_box low high u <= high.
Proof.
  intros low high u [Hl Hh] Hu. unfold safe_sample_box.
  set (lo := clip low (-1000000000) 1000000000). set (hi := clip high (-1000000000) 1000000000).
  assert (L1 : low <= lo <= 0) by (unfold lo, clip, Rmin, Rmax; destruct (Rle_dec low (-1000000000)); destruct (Rle_dec _ 1000000000); lra).
  assert (L2 : 0 <= hi <= high) by (unfold hi, clip, Rmin, Rmax; destruct (Rle_dec high (-1000000000)); destruct (Rle_dec _ 1000000000); lra).
  set (x := lo + u * (hi - lo)). assert (X : lo <= x <= hi) by (unfold x; nra).
  pose proof (ln_bound (Rabs_pos x)). unfold rsign. destruct (Rlt_dec 0 x); [rewrite Rabs_right in * by lra; lra|].
  destruct (Rlt_dec x 0); [rewrite Rabs_left in * by lra; lra|lra].
Qed.
