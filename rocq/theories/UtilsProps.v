(** Properties C25-C30 and C57-C59: helpers in coax/utils. *)
From Coq Require Import List ZArith Lia Bool Reals Lra Sorted.
From Verif Require Import PyCommon TransModel TransSpec UtilsModel UtilsSpec UtilsProofs UtilsProofs2 UtilsProofs3.
Import ListNotations.

(** C25: for every batch of n >= 1 consistent rows, concatenating the chunks restores the batch; every chunk is a consistent
    batch of a power-of-two size; the sizes decrease strictly. *)
Theorem C25_chunks_pow2 : forall O n (b : batch O), consistent n b -> 1 <= n ->
  concat_batches (chunks_pow2 b) = Ok b /\
  (forall c, In c (chunks_pow2 b) -> exists k, batch_size c = 2 ^ k /\ consistent (2 ^ k) c) /\
  StronglySorted (fun x y => y < x) (map (@batch_size O) (chunks_pow2 b)).
Proof. exact (fun O n b => @chunks_spec O n b). Qed.
Print Assumptions C25_chunks_pow2.

Definition ex_rows (n : nat) : tree (list (row nat)) := TLeaf (map (fun k => RObj k) (seq 0 n)).
Definition ex_b6 : batch nat := mkB (ex_rows 6) (ex_rows 6) TNone (map (fun k => RObj k) (seq 10 6)) (ex_rows 6) (TNode [ex_rows 6; ex_rows 6]) TNone TNone (ex_rows 6) (ex_rows 6) TNone.
Example C25_example : consistent 6 ex_b6 /\ map (@batch_size nat) (chunks_pow2 ex_b6) = [4; 2].
Proof.
  split; [|reflexivity]. split; [|split; discriminate]. intros l H. cbn in H. repeat (destruct H as [<-|H]; [reflexivity|]). destruct H.
Qed.

Local Open Scope R_scope.

(** C26: values at and between the knots, flat outside, never outside the range of the knot values. *)
Theorem C26_knots : forall steps f, slf_new steps = Ok f -> forall t v, In (t, v) steps -> slf_call f (IZR t) = Ok v.
Proof. exact (fun steps f H => @slf_knot steps f H). Qed.
Print Assumptions C26_knots.
Theorem C26_flat_before : forall steps f, slf_new steps = Ok f -> forall t v l x, steps = (t, v) :: l -> x < IZR t -> slf_call f x = Ok v.
Proof. exact (fun steps f H => @slf_before steps f H). Qed.
Print Assumptions C26_flat_before.
Theorem C26_flat_after : forall steps f, slf_new steps = Ok f -> forall t v l x, steps = l ++ [(t, v)] -> IZR t <= x -> slf_call f x = Ok v.
Proof. exact (fun steps f H => @slf_after steps f H). Qed.
Print Assumptions C26_flat_after.
Theorem C26_linear_between : forall steps f, slf_new steps = Ok f -> forall l1 t v t' v' l2 x, steps = l1 ++ (t, v) :: (t', v') :: l2 -> IZR t <= x < IZR t' ->
  slf_call f x = Ok (v + (v' - v) / (IZR t' - IZR t) * (x - IZR t)).
Proof. exact (fun steps f H => @slf_between steps f H). Qed.
Print Assumptions C26_linear_between.
Theorem C26_range : forall steps f, slf_new steps = Ok f -> forall x lo hi, (forall t v, In (t, v) steps -> lo <= v <= hi) -> exists y, slf_call f x = Ok y /\ lo <= y <= hi.
Proof. exact (fun steps f H => @slf_range steps f H). Qed.
Print Assumptions C26_range.
(** C26: the constructor accepts exactly the lists of two or more knots with strictly increasing times. *)
Theorem C26_rejects : forall steps,
  ((length steps < 2)%nat -> slf_new steps = Err EType) /\
  ((2 <= length steps)%nat -> ~ (forall i t v t' v', nth_error steps i = Some (t, v) -> nth_error steps (S i) = Some (t', v') -> (t < t')%Z) -> slf_new steps = Err EValue) /\
  ((2 <= length steps)%nat -> (forall i t v t' v', nth_error steps i = Some (t, v) -> nth_error steps (S i) = Some (t', v') -> (t < t')%Z) -> exists f, slf_new steps = Ok f).
Proof.
  intros steps. split; [apply slf_rejects|]. split.
  - intros H N. apply slf_rejects; auto. intros C. apply N. now apply ascending_iff.
  - intros H N. apply slf_new_ok; auto. now apply ascending_iff.
Qed.
Print Assumptions C26_rejects.
Example C26_example : exists f, slf_new [(0%Z, 1); (10%Z, 3); (20%Z, 2)] = Ok f /\ slf_call f 15 = Ok (3 + (2 - 3) / (20 - 10) * (15 - 10)).
Proof.
  destruct (C26_rejects [(0%Z, 1); (10%Z, 3); (20%Z, 2)]) as [_ [_ H]]. destruct H as [f Hf]; [cbn; lia| |].
  - intros [|[|[|i]]] t v t' v' H1 H2; cbn in H1, H2; try congruence; try (injection H1 as <- <-; injection H2 as <- <-; lia).
  - exists f. split; auto. apply (C26_linear_between _ _ Hf [(0%Z, 1)] 10%Z 3 20%Z 2 []); [reflexivity|lra].
Qed.

(** C27: component j of diff_transform(x) is the difference of order n-1-j of the newest frame; applying the transform twice
    gives the frames back. *)
Theorem C27_diff_transform : forall x, x <> [] -> exists y, diff_transform x = Ok y /\ length y = length x /\
  (forall j, (j < length x)%nat -> nth j y 0 = last_diff (length x - 1 - j) x) /\ diff_transform y = Ok x.
Proof. exact diff_transform_spec. Qed.
Print Assumptions C27_diff_transform.
Example C27_example : last_diff 2 [5; 7; 12] = (12 - 7) - (7 - 5).
Proof. reflexivity. Qed.

(** C28. *)
Theorem C28_rolling : forall n xs, (1 <= n)%nat -> xs <> [] -> exists r, updates rolling_update (rolling_new n) xs = Ok r /\
  ro_v r = mean (lastn n xs) /\ between (lastn n xs) (ro_v r).
Proof. exact rolling_spec. Qed.
Print Assumptions C28_rolling.
Theorem C28_exponential : forall n xs, (1 <= n)%nat -> xs <> [] -> exists e, updates expavg_update (expavg_new n) xs = Ok e /\
  ((length xs <= n)%nat -> xa_v e = mean xs) /\ between xs (xa_v e) /\
  (forall x, (n <= length xs)%nat -> exists e', updates expavg_update (expavg_new n) (xs ++ [x]) = Ok e' /\ xa_v e' = xa_v e + (x - xa_v e) / INR n).
Proof. exact expavg_spec. Qed.
Print Assumptions C28_exponential.
Example C28_example : lastn 2 [1; 5; 7] = [5; 7] /\ mean [5; 7] = 6.
Proof. split; [reflexivity|]. unfold mean. cbn. lra. Qed.

(** C29: with positive weights and equal structures: a key held by at least two dicts gets, in all its holders, the weighted
    average; every other entry is unchanged; a second call changes nothing. *)
Theorem C29_sync : forall ps weights, (2 <= length ps)%nat ->
  let ws := match weights with Some w => w | None => map (fun _ => 1) ps end in
  length ws = length ps -> (forall w, In w ws -> 0 < w) ->
  (forall k p p' g g', In p ps -> In p' ps -> dget k p = Some g -> dget k p' = Some g' -> length g = length g') ->
  exists qs, sync_shared_params ps weights = Ok qs /\ length qs = length ps /\
    (forall i p q k, nth_error ps i = Some p -> nth_error qs i = Some q ->
       (dget k p = None -> dget k q = None) /\
       ((owners (map (dget k) ps) < 2)%nat -> dget k q = dget k p) /\
       ((2 <= owners (map (dget k) ps))%nat -> forall g, dget k p = Some g -> exists a, dget k q = Some a /\ length a = length g /\
          forall j, nth j a 0 = owner_sum j ws (map (dget k) ps) / owner_weight ws (map (dget k) ps))) /\
    sync_shared_params qs weights = Ok qs.
Proof. exact sync_spec. Qed.
Print Assumptions C29_sync.
Definition ex_ps : list (dict (list R)) := [[(1%nat, [1; 2]); (2%nat, [3])]; [(1%nat, [5; 6])]; [(3%nat, [7])]].
Example C29_example : owners (map (dget 1) ex_ps) = 2%nat /\ owners (map (dget 2) ex_ps) = 1%nat /\ owner_sum 0 [1; 3; 1] (map (dget 1) ex_ps) / owner_weight [1; 3; 1] (map (dget 1) ex_ps) = 4 /\
  (forall k p p' g g', In p ex_ps -> In p' ex_ps -> dget k p = Some g -> dget k p' = Some g' -> length g = length g').
Proof.
  split; [reflexivity|]. split; [reflexivity|]. split; [unfold owner_sum, owner_weight; cbn; lra|].
  intros k p p' g g' Hp Hp'. unfold ex_ps in *. destruct k as [|[|[|[|k]]]];
  repeat (destruct Hp as [<-|Hp]; [repeat (destruct Hp' as [<-|Hp']; [cbn; congruence || (intros E1 E2; injection E1 as <-; injection E2 as <-; reflexivity)|]); destruct Hp'|]); destruct Hp.
Qed.

(** C29: merge_dicts: the last dict that has the key decides; no other keys appear; keys stay distinct. *)
Theorem C29_merge : forall V (ds : list (dict V)), Forall (fun d => NoDup (map fst d)) ds ->
  (forall k v ds1 d ds2, ds = ds1 ++ d :: ds2 -> dget k d = Some v -> (forall e, In e ds2 -> dget k e = None) -> dget k (merge_dicts ds) = Some v) /\
  (forall k, (forall d, In d ds -> dget k d = None) -> dget k (merge_dicts ds) = None).
Proof. exact merge_spec. Qed.
Print Assumptions C29_merge.
Theorem C29_merge_is_dict : forall V (ds : list (dict V)), NoDup (map fst (merge_dicts ds)).
Proof. exact merge_nodup. Qed.
Print Assumptions C29_merge_is_dict.
Example C29_merge_example : merge_dicts [[(1, 10); (2, 20)]; [(2, 21); (3, 30)]]%nat = [(1, 10); (2, 21); (3, 30)]%nat.
Proof. reflexivity. Qed.

(** C30: for draws that are not all zero.  Strict increase and positivity hold exactly when no draw is zero. *)
Theorem C30_uniform_partial : forall us, (forall u, In u us -> 0 <= u) -> 0 < rsum us ->
  length (quantiles_uniform us) = length us /\ nondecreasing (quantiles_uniform us) /\ (forall q, In q (quantiles_uniform us) -> 0 <= q <= 1) /\
  last (quantiles_uniform us) 0 = 1 /\
  (strictly_increasing (quantiles_uniform us) /\ (forall q, In q (quantiles_uniform us) -> 0 < q) <-> (forall u, In u us -> 0 < u)).
Proof. exact quantiles_uniform_spec. Qed.
Print Assumptions C30_uniform_partial.
Example C30_example : (forall u, In u [1/2; 0; 1/4] -> 0 <= u) /\ 0 < rsum [1/2; 0; 1/4].
Proof. split; [intros u H; repeat destruct H as [<-|H]; try lra; destruct H|cbn; lra]. Qed.
(** C30: jax.random.uniform draws from [0,1): a zero draw gives a fraction 0 and a repeated fraction. *)
Theorem C30_uniform_strict_refuted : exists us, (forall u, In u us -> 0 <= u < 1) /\ 0 < rsum us /\ ~ strictly_increasing (quantiles_uniform us) /\ In 0 (quantiles_uniform us).
Proof.
  exists [0; 1/2; 0]. split; [intros u H; repeat destruct H as [<-|H]; try lra; destruct H|]. split; [cbn; lra|].
  assert (E : quantiles_uniform [0; 1/2; 0] = [0 + 0 / rsum [0; 1/2; 0]; 0 + 0 / rsum [0; 1/2; 0] + 1/2 / rsum [0; 1/2; 0]; 0 + 0 / rsum [0; 1/2; 0] + 1/2 / rsum [0; 1/2; 0] + 0 / rsum [0; 1/2; 0]]) by reflexivity.
  rewrite E. split.
  - intros H. specialize (H 1%nat 2%nat ltac:(cbn; lia)). cbn [nth] in H. unfold Rdiv in H. lra.
  - left. unfold Rdiv. lra.
Qed.
Print Assumptions C30_uniform_strict_refuted.
Theorem C30_quantiles_partial : forall n, (1 <= n)%nat -> length (quantiles n) = n /\ strictly_increasing (quantiles n) /\
  (forall i, (i < n)%nat -> nth i (quantiles n) 0 = INR i / INR n) /\ (forall q, In q (quantiles n) -> 0 <= q < 1).
Proof. exact quantiles_spec. Qed.
Print Assumptions C30_quantiles_partial.
(** C30: the first of the equally spaced fractions is 0, for every n. *)
Theorem C30_quantiles_positive_refuted : forall n, (1 <= n)%nat -> In 0 (quantiles n).
Proof.
  intros n H. destruct n as [|n]; [lia|]. left. unfold Rdiv. cbn [INR]. lra.
Qed.
Print Assumptions C30_quantiles_positive_refuted.

(** C57: a sampled component lies in the box whenever the box contains 0. *)
Theorem C57_box_partial : forall low high u, low <= 0 <= high -> 0 <= u < 1 -> low <= safe_sample_box low high u <= high.
Proof. exact safe_sample_box_spec. Qed.
Print Assumptions C57_box_partial.
Example C57_example : -3 <= 0 <= 5 /\ 0 <= 1/2 < 1. Proof. lra. Qed.
(** C57: the exact value for bounds within [-1e9, 1e9]: the signed logarithm of the uniform point. *)
Theorem C57_box_exact : forall low high u, -1000000000 <= low <= 1000000000 -> -1000000000 <= high <= 1000000000 ->
  let x := low + u * (high - low) in
  (0 <= x -> safe_sample_box low high u = ln (1 + x)) /\ (x <= 0 -> safe_sample_box low high u = - ln (1 - x)).
Proof.
  intros low high u Hl Hh x. unfold safe_sample_box, clip. rewrite (Rmax_left low), (Rmin_left low), (Rmax_left high), (Rmin_left high) by lra. fold x. unfold rsign. split; intros H.
  - destruct (Rlt_dec 0 x); [rewrite Rabs_right by lra; lra|]. destruct (Rlt_dec x 0); [lra|]. replace x with 0 by lra. rewrite Rplus_0_r, ln_1. lra.
  - destruct (Rlt_dec 0 x); [lra|]. destruct (Rlt_dec x 0); [rewrite Rabs_left by lra; replace (1 + - x) with (1 - x) by lra; lra|]. replace x with 0 by lra. rewrite Rminus_0_r, ln_1. lra.
Qed.
Print Assumptions C57_box_exact.
Example C57_exact_example : 0 <= -3 + (1/2) * (5 - -3) /\ -3 + (1/4) * (5 - -3) <= 0. Proof. lra. Qed.
(** C57: otherwise the log transform leaves the box: [2,3] gives log(3) < 2. *)
Theorem C57_box_refuted : exists low high u, low < high /\ 0 <= u < 1 /\ ~ low <= safe_sample_box low high u <= high.
Proof.
  exists 2, 3, 0. split; [lra|]. split; [lra|]. unfold safe_sample_box, clip, rsign.
  replace (Rmin (Rmax 2 (-1000000000)) 1000000000) with 2 by (rewrite Rmax_left by lra; rewrite Rmin_left by lra; auto).
  rewrite Rmult_0_l, Rplus_0_r. destruct (Rlt_dec 0 2); [|lra]. rewrite Rabs_right by lra. intros [H _]. assert (L : ln (1 + 2) < 2); [|lra].
  assert (K : ln (1 + 2) < ln (exp 2)); [|rewrite ln_exp in K; exact K]. apply ln_increasing; [lra|]. apply exp_ineq1. lra.
Qed.
Print Assumptions C57_box_refuted.
(** C57: Discrete(n, start): the draw ignores start. *)
Theorem C57_discrete_refuted : exists n start, (0 < n)%Z /\ forall k, (0 <= k < n)%Z -> ~ (start <= safe_sample_discrete k < start + n)%Z.
Proof. exists 3%Z, 5%Z. split; [lia|]. intros k Hk. unfold safe_sample_discrete. lia. Qed.
Print Assumptions C57_discrete_refuted.

(** C58: for noise within (-50, 50) (float32 gumbel noise is within (-5, 17)) argmax returns a maximiser and every
    maximiser can be returned; likewise argmin. *)
Theorem C58_argmax : forall arr gs, arr <> [] -> length gs = length arr -> (forall g, In g gs -> -50 < g < 50) ->
  exists i, argmax arr gs = Ok i /\ maximal_at arr i.
Proof. exact argmax_spec. Qed.
Print Assumptions C58_argmax.
Theorem C58_argmax_every : forall arr i, maximal_at arr i -> exists gs, length gs = length arr /\ (forall g, In g gs -> -50 < g < 50) /\ argmax arr gs = Ok i.
Proof. exact argmax_all. Qed.
Print Assumptions C58_argmax_every.
(** C58: an empty array is refused. *)
Theorem C58_empty : forall gs, argmax [] gs = Err EValue /\ argmin [] gs = Err EValue.
Proof. intros gs. split; reflexivity. Qed.
Print Assumptions C58_empty.
Theorem C58_argmin : forall arr gs, arr <> [] -> length gs = length arr -> (forall g, In g gs -> -50 < g < 50) ->
  exists i, argmin arr gs = Ok i /\ minimal_at arr i.
Proof. exact argmin_spec. Qed.
Print Assumptions C58_argmin.
Theorem C58_argmin_every : forall arr i, minimal_at arr i -> exists gs, length gs = length arr /\ (forall g, In g gs -> -50 < g < 50) /\ argmin arr gs = Ok i.
Proof. exact argmin_all. Qed.
Print Assumptions C58_argmin_every.
Example C58_example : maximal_at [1; 3; 3] 1 /\ maximal_at [1; 3; 3] 2 /\ minimal_at [1; 3; 3] 0.
Proof. repeat split; cbn; try lia; intros [|[|[|j]]] H; cbn; try lra; lia. Qed.

(** C59: the embedding uses the frequencies 1..n, not 0..n-1. *)
Theorem C59_cos_embedding : forall tau n, length (quantile_cos_embedding tau n) = n /\
  (forall i, (i < n)%nat -> nth i (quantile_cos_embedding tau n) 0 = cos (PI * tau * INR (i + 1))) /\ (forall y, In y (quantile_cos_embedding tau n) -> -1 <= y <= 1).
Proof.
  intros tau n. unfold quantile_cos_embedding. split; [now rewrite map_length, seq_length|]. split.
  - intros i Hi. rewrite (nth_indep _ 0 (cos (INR 0 * PI * tau))) by (rewrite map_length, seq_length; auto).
    rewrite (map_nth (fun i => cos (INR i * PI * tau)) (seq 1 n) 0%nat i), seq_nth by auto. f_equal. rewrite (Nat.add_comm 1 i). ring.
  - intros y Hy. apply in_map_iff in Hy. destruct Hy as [i [<- _]]. apply COS_bound.
Qed.
Print Assumptions C59_cos_embedding.
Theorem C59_documented_frequencies_refuted : exists tau n i, 0 <= tau <= 1 /\ (i < n)%nat /\ nth i (quantile_cos_embedding tau n) 0 <> cos (PI * tau * INR i).
Proof.
  exists 1, 1%nat, 0%nat. split; [lra|]. split; [lia|]. destruct (C59_cos_embedding 1 1) as [_ [H _]]. rewrite (H 0%nat) by lia.
  cbn [INR Nat.add]. rewrite Rmult_0_r, cos_0, !Rmult_1_r, cos_PI. lra.
Qed.
Print Assumptions C59_documented_frequencies_refuted.
