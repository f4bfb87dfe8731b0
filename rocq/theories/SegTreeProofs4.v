(** Segment trees: the statements used by SegTreeProps.v, in terms of reachable trees and plain lists. *)
From Coq Require Import List ZArith Lia Bool Reals Lra.
From Verif Require Import NatDivLia PyCommon CommonProofs SegTreeModel SegTreeSpec SegTreeProofs SegTreeProofs2 SegTreeProofs3.
Import ListNotations.
Set Implicit Arguments.

Section Reach.
Variable A : Type.
Variable op : A -> A -> A.
Variable init : A.
Hypothesis Hassoc : associative op.
Hypothesis Hunit : unit_of op init.

Notation reach c cs := (run_sets op init (tree_init init c) cs).

Lemma init_idem : op init init = init. Proof. apply Hunit. Qed.

Lemma reach_ok : forall c cs, 1 <= c -> tree_ok op init (reach c cs) /\ capacity (reach c cs) = c.
Proof. intros c cs Hc. destruct (history_ok op init_idem cs Hc) as [H1 [H2 _]]. auto. Qed.

Lemma reach_values : forall c cs, 1 <= c ->
  exists f, array_after c init cs f /\ values (reach c cs) = map f (seq 0 c).
Proof.
  intros c cs Hc. destruct (history_ok op init_idem cs Hc) as [H1 [H2 [f [Hf Hl]]]].
  exists f. split; auto. rewrite (values_map H1), H2. apply map_ext_in. intros i Hi. apply in_seq in Hi. apply Hl. lia.
Qed.

Lemma reach_values_all : forall c cs f, 1 <= c -> array_after c init cs f -> values (reach c cs) = map f (seq 0 c).
Proof.
  intros c cs f Hc Hf. destruct (reach_values cs Hc) as [g [Hg E]]. rewrite E. apply map_ext. intros i.
  eapply array_after_fun; eauto.
Qed.

Lemma reach_root : forall c cs, 1 <= c -> root_value init (reach c cs) = reduce op init (values (reach c cs)).
Proof. intros c cs Hc. apply root_reduce; auto. now apply reach_ok. Qed.

Lemma red_slice : forall t, tree_ok op init t -> forall lo n, lo + n <= 2 ^ (height t - 1) ->
  red op init t lo n = reduce op init (slice (values t) lo (lo + n)).
Proof.
  intros t Ht lo n H.
  assert (Hin : forall lo n, lo + n <= capacity t -> red op init t lo n = reduce op init (slice (values t) lo (lo + n))).
  { clear lo n H. intros lo n H. destruct n as [|n].
    - rewrite red_0. unfold slice. replace (lo + 0 - lo) with 0 by lia. reflexivity.
    - rewrite (slice_values Ht (s:=lo) (e:=lo + S n)) by lia. f_equal. lia. }
  assert (Hout : forall lo n, capacity t <= lo -> lo + n <= 2 ^ (height t - 1) -> red op init t lo n = init).
  { clear lo n H. intros lo n. revert lo. induction n as [|n IH]; intros lo H1 H2.
    - apply red_0.
    - replace (S n) with (n + 1) by lia. rewrite (red_add Hassoc Hunit), IH by lia. rewrite (red_1 Hunit).
      rewrite (unit_l Hunit). destruct Ht as [_ [_ [_ [_ Hpad]]]]. apply Hpad; lia. }
  pose proof (values_length Ht) as Hlen.
  destruct (Nat.le_gt_cases (lo + n) (capacity t)) as [H1|H1]; [auto|].
  destruct (Nat.le_gt_cases (capacity t) lo) as [H2|H2].
  - rewrite Hout by auto. unfold slice. rewrite skipn_all2 by lia. rewrite firstn_nil. reflexivity.
  - replace n with ((capacity t - lo) + (n - (capacity t - lo))) at 1 by lia.
    rewrite (red_add Hassoc Hunit). rewrite (Hout (lo + (capacity t - lo))) by lia. rewrite (unit_r Hunit). rewrite Hin by lia.
    f_equal. unfold slice. rewrite !firstn_all2; auto; rewrite skipn_length; lia.
Qed.

Lemma reach_nodes : forall c cs level k, 1 <= c -> level <= Nat.log2_up c -> k < Nat.min (2 ^ level) c ->
  let t := reach c cs in let w := 2 ^ (Nat.log2_up c - level) in
  exists ns, level_lookup t (Z.of_nat level) = Ok ns /\ length ns = Nat.min (2 ^ level) c /\
    nth_error ns k = Some (reduce op init (slice (values t) (k * w) ((k + 1) * w))).
Proof.
  intros c cs level k Hc Hl Hk t w. destruct (@reach_ok c cs Hc) as [Ht Hcap]. fold t in Ht, Hcap.
  pose proof Ht as [_ [Hh _]]. rewrite Hcap in Hh.
  destruct (@level_lookup_spec A op init Hassoc Hunit t level k Ht) as [ns [E [Hn Hv]]]; [lia|rewrite Hcap; lia|].
  exists ns. rewrite Hcap in Hn. split; [auto|split; [auto|]].
  rewrite (nth_error_nth' ns init) by lia. f_equal. rewrite Hv. rewrite Hh.
  replace (Nat.log2_up c + 1 - 1 - level) with (Nat.log2_up c - level) by lia. fold w.
  replace ((k + 1) * w) with (k * w + w) by lia.
  apply red_slice; auto. rewrite Hh. replace (Nat.log2_up c + 1 - 1) with (level + (Nat.log2_up c - level)) by lia.
  rewrite Nat.pow_add_r. fold w. nia.
Qed.

Lemma range_reduce_of : forall t r, tree_ok op init t -> range_reduce op init t r = reduce op init (range_of (values t) r).
Proof. intros t r Ht. unfold range_reduce, range_of. now rewrite (values_length Ht). Qed.

Lemma reach_batch_iff : commutative op -> forall c cs rs, 1 <= c -> (forall r, In r rs -> valid_range c r) ->
  let t := reach c cs in
  (~ bad_batch c rs -> partial_reduce_batch op init t rs = Ok (map (fun r => reduce op init (range_of (values t) r)) rs)) /\
  (bad_batch c rs -> partial_reduce_batch op init t rs = Err EIndex).
Proof.
  intros Hcomm c cs rs Hc Hv t. destruct (@reach_ok c cs Hc) as [Ht Hcap]. fold t in Ht, Hcap. split; intros H.
  - rewrite (@partial_reduce_batch_good A op init Hassoc Hunit Hcomm t rs Ht); rewrite ?Hcap; auto. f_equal.
    apply map_ext. intros r. now apply range_reduce_of.
  - apply (@partial_reduce_batch_bad A op init Hassoc Hunit t rs Ht); rewrite ?Hcap; auto.
Qed.

Lemma single_not_bad : forall c r, valid_range c r -> ~ bad_batch c [r].
Proof.
  intros c r [H1 H2] [_ [[r1 [[<-|[]] E1]] [r2 [[<-|[]] E2]]]]. apply E2. f_equal. lia.
Qed.

Lemma reach_partial_reduce : commutative op -> forall c cs s e, 1 <= c -> valid_range c (s, e) ->
  let t := reach c cs in
  partial_reduce op init t s e = Ok [reduce op init (range_of (values t) (s, e))].
Proof.
  intros Hcomm c cs s e Hc Hv t. destruct (@reach_batch_iff Hcomm c cs [(s, e)] Hc) as [H _].
  - intros r [<-|[]]. auto.
  - unfold partial_reduce, t. rewrite H by (now apply single_not_bad). reflexivity.
Qed.

(** stop = 0 behaves like stop = capacity; start = stop > 0 is rejected. *)
Lemma reach_stop_zero : forall c cs s, 1 <= c ->
  let t := reach c cs in partial_reduce op init t s 0 = partial_reduce op init t s (Z.of_nat c).
Proof.
  intros c cs s Hc t. destruct (@reach_ok c cs Hc) as [Ht Hcap]. fold t in Ht, Hcap.
  unfold partial_reduce, partial_reduce_batch, check_ranges. cbn [map]. unfold range_to_ij. cbn [fst snd].
  rewrite (tree_ok_size Ht), Hcap.
  replace ((Z.of_nat c - 1) mod Z.of_nat c)%Z with ((0 - 1) mod Z.of_nat c)%Z; [reflexivity|].
  rewrite <- (Z_mod_plus_full (0 - 1) 1 (Z.of_nat c)). f_equal. lia.
Qed.

Lemma reach_empty_range : forall c cs s, 1 <= c -> (1 <= s < Z.of_nat c)%Z ->
  partial_reduce op init (reach c cs) s s = Err EIndex.
Proof.
  intros c cs s Hc Hs. destruct (@reach_ok c cs Hc) as [Ht Hcap].
  unfold partial_reduce, partial_reduce_batch, check_ranges. cbn [map]. unfold range_to_ij. cbn [fst snd].
  rewrite (tree_ok_size Ht), Hcap. rewrite !Z.mod_small by lia. cbn [forallb fst snd].
  destruct (Nat.leb_spec (level_off (height (reach c cs) - 1) + Z.to_nat s) (level_off (height (reach c cs) - 1) + Z.to_nat (s - 1))).
  - exfalso. lia.
  - reflexivity.
Qed.

Lemma reach_rejected : forall c cs idx vs, 1 <= c -> (exists k, In k idx /\ ~ pyvalid c k) ->
  set_values_eff op init (reach c cs) idx vs = (reach c cs, Some EIndex).
Proof.
  intros c cs idx vs Hc Hk. destruct (@reach_ok c cs Hc) as [Ht Hcap].
  unfold set_values_eff. rewrite (check_idx_bad idx Ht); auto.
  rewrite Hcap. intros H. destruct Hk as [k [Hin Hk]]. auto.
Qed.

Lemma reach_set_get : forall c cs k v, 1 <= c -> pyvalid c k ->
  exists t, set_values op init (reach c cs) [k] [v] = Ok t /\ forall i, i < c ->
    nth_error (values t) i = if Z.eqb (Z.of_nat i) (pynorm c k) then Some v else nth_error (values (reach c cs)) i.
Proof.
  intros c cs k v Hc Hk. destruct (@reach_ok c cs Hc) as [Ht Hcap].
  destruct (@set_values_ok A op init (reach c cs) [k] [v] Ht) as [t [E [Ht' [Hcap' Hl]]]].
  { rewrite Hcap. split; [|now left]. intros k' [<-|[]]. auto. }
  exists t. split; auto. intros i Hi.
  rewrite (nth_error_nth' _ init) by (rewrite (values_length Ht'); lia).
  rewrite (nth_error_nth' _ init) by (rewrite (values_length Ht); lia).
  rewrite (values_nth Ht'), (values_nth Ht) by lia. rewrite Hl by lia. rewrite Hcap.
  unfold assigned, call_pairs. cbn [snd fst map rev app find].
  rewrite (Z.eqb_sym (pynorm c k)). destruct (Z.eqb _ _); reflexivity.
Qed.

End Reach.

(** SumTree. *)
Notation sreach c cs := (run_sets Rplus 0%R (sumtree_init c) cs).

Lemma sreach_ok : forall c cs, 1 <= c -> tree_ok Rplus 0%R (sreach c cs) /\ capacity (sreach c cs) = c.
Proof. intros. unfold sumtree_init. apply reach_ok; auto. apply Rplus_unit. Qed.

Lemma sreach_inverse_cdf : forall c cs us, 1 <= c ->
  let w := values (sreach c cs) in
  (forall x, In x w -> (0 <= x)%R) -> (0 < rsum w)%R -> (forall u, In u us -> (0 <= u < 1)%R) ->
  exists is_, inverse_cdf (sreach c cs) us = Ok is_ /\
  Forall2 (fun u i => i < c /\ (0 < nth i w 0)%R /\ (prefix_sum w i <= u * rsum w < prefix_sum w (S i))%R) us is_.
Proof.
  intros c cs us Hc w Hnn Hpos Hu. destruct (@sreach_ok c cs Hc) as [Ht Hcap].
  exists (map (inverse_cdf1 (sreach c cs)) us). split.
  - unfold inverse_cdf. rewrite (root_reduce Rplus_associative Rplus_unit Ht), rsum_reduce. fold w.
    destruct (Rle_dec (rsum w) 0) as [H|_]; [lra|].
    assert (E : forallb (fun u => if Rgt_dec u 1 then false else if Rlt_dec u 0 then false else true) us = true).
    { apply forallb_forall. intros u Hin. specialize (Hu u Hin).
      destruct (Rgt_dec u 1); [lra|]. destruct (Rlt_dec u 0); [lra|reflexivity]. }
    now rewrite E.
  - induction us as [|u us IH]; constructor.
    + destruct (@inverse_cdf1_spec _ u Ht Hpos) as [H1 [H2 H3]]; [apply Hu; now left|]. rewrite Hcap in H1. auto.
    + apply IH. intros; apply Hu; now right.
Qed.

Lemma sreach_inverse_cdf_iff : forall c cs u i, 1 <= c ->
  let w := values (sreach c cs) in
  (forall x, In x w -> (0 <= x)%R) -> (0 < rsum w)%R -> (0 <= u < 1)%R -> i < c ->
  (inverse_cdf (sreach c cs) [u] = Ok [i] <->
   (prefix_sum w i / rsum w <= u < prefix_sum w i / rsum w + nth i w 0 / rsum w)%R).
Proof.
  intros c cs u i Hc w Hnn Hpos Hu Hi. destruct (@sreach_ok c cs Hc) as [Ht Hcap].
  assert (E : inverse_cdf (sreach c cs) [u] = Ok [inverse_cdf1 (sreach c cs) u]).
  { unfold inverse_cdf. rewrite (root_reduce Rplus_associative Rplus_unit Ht), rsum_reduce. fold w.
    destruct (Rle_dec (rsum w) 0) as [H|_]; [lra|]. cbn [forallb].
    destruct (Rgt_dec u 1); [lra|]. destruct (Rlt_dec u 0); [lra|reflexivity]. }
  rewrite E. rewrite <- Hcap in Hi.
  pose proof (@inverse_cdf1_iff _ u i Ht Hnn Hpos Hu Hi) as H. fold w in H.
  assert (Hdiv : forall a b, (a <= u * rsum w < b)%R <-> (a / rsum w <= u < b / rsum w)%R).
  { intros a b. assert (Ea : (a = a / rsum w * rsum w)%R) by (field; lra).
    assert (Eb : (b = b / rsum w * rsum w)%R) by (field; lra).
    split; intros [G1 G2].
    - rewrite Ea in G1. rewrite Eb in G2. split; [now apply Rmult_le_reg_r in G1|now apply Rmult_lt_reg_r in G2].
    - rewrite Ea, Eb. split; [apply Rmult_le_compat_r; lra|apply Rmult_lt_compat_r; lra]. }
  rewrite Hdiv in H. rewrite Rdiv_plus_distr in H. rewrite <- H.
  split; [intros G; now injection G|now intros ->].
Qed.

Lemma sreach_nonpositive : forall c cs us, 1 <= c -> (rsum (values (sreach c cs)) <= 0)%R ->
  inverse_cdf (sreach c cs) us = Err ERuntime.
Proof.
  intros c cs us Hc Hn. destruct (@sreach_ok c cs Hc) as [Ht Hcap].
  unfold inverse_cdf. rewrite (root_reduce Rplus_associative Rplus_unit Ht), rsum_reduce.
  destruct (Rle_dec _ 0) as [_|H]; [reflexivity|lra].
Qed.

Lemma sreach_out_of_range : forall c cs us, 1 <= c -> (0 < rsum (values (sreach c cs)))%R ->
  (exists u, In u us /\ (u < 0 \/ 1 < u)%R) -> inverse_cdf (sreach c cs) us = Err EValue.
Proof.
  intros c cs us Hc Hp [u [Hin Hu]]. destruct (@sreach_ok c cs Hc) as [Ht Hcap].
  unfold inverse_cdf. rewrite (root_reduce Rplus_associative Rplus_unit Ht), rsum_reduce.
  destruct (Rle_dec _ 0) as [H|_]; [lra|].
  destruct (forallb _ us) eqn:E; [|reflexivity]. exfalso.
  rewrite forallb_forall in E. specialize (E u Hin). cbv beta in E.
  destruct (Rgt_dec u 1); [discriminate|]. destruct (Rlt_dec u 0); [discriminate|lra].
Qed.

Lemma sreach_one : forall c cs, 1 <= c ->
  let w := values (sreach c cs) in
  (forall x, In x w -> (0 <= x)%R) -> (0 < rsum w)%R ->
  inverse_cdf (sreach c cs) [1%R] = Ok [2 ^ Nat.log2_up c - 1].
Proof.
  intros c cs Hc w Hnn Hpos. destruct (@sreach_ok c cs Hc) as [Ht Hcap].
  unfold inverse_cdf. rewrite (root_reduce Rplus_associative Rplus_unit Ht), rsum_reduce. fold w.
  destruct (Rle_dec (rsum w) 0) as [H|_]; [lra|]. cbn [forallb].
  destruct (Rgt_dec 1 1); [lra|]. destruct (Rlt_dec 1 0); [lra|]. cbn [andb map].
  rewrite (inverse_cdf1_one Ht Hnn). now rewrite Hcap.
Qed.
