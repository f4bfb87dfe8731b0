(** Property C108: the distribution of the batches of the prioritized buffer (coax/experience_replay/_prioritized.py), for independent
    uniform numbers of the SumTree's generator.

    As in PrioProps.v, [w0] is a fresh buffer and [os] an arbitrary program that does not re-add, or assign the idx of, a stored one-row
    object; [log] are the rows added since the last clear. *)
From Coq Require Import List ZArith Lia Bool Reals Lra.
From Verif Require Import PyCommon SegTreeModel SegTreeSpec ReplayModel ReplaySpec PrioModel PrioSpec PrioProofs4 MeanSpec MeanProofs DrawProofs.
Import ListNotations.
Open Scope R_scope.

(** A mean is unique. *)
Theorem mean_unique : forall n F m m', mean_units n F m -> mean_units n F m' -> m = m'.
Proof. intros n F m m' H H'. apply (@mean_units_unique n F F m m'); auto. Qed.
Print Assumptions mean_unique.

(** C108: the probabilities: positive, proportional to the priorities, of sum one. *)
Theorem C108_probabilities : forall Y cap (h : list (tbatch (Y * R))) alpha beta eps w0 os,
  prio_init h cap alpha beta eps = Ok w0 -> p_no_alias w0 os ->
  let w := prio_run w0 os in let log := p_added w0 os [] in log <> [] ->
  let P := fun k => priority w k / rsum (prio_values w) in
  (forall k, In k (stored cap (length log)) <-> in_window cap (length log) k) /\
  (forall k, In k (stored cap (length log)) -> 0 < P k) /\ sum_over (stored cap (length log)) P = 1.
Proof.
  intros Y cap h alpha beta eps w0 os Hi Ha w log Hl P. split; [intros k; exact (@stored_window Y cap h alpha beta eps w0 Hi _ k)|].
  split; [exact (@P_pos Y cap h alpha beta eps w0 os Hi Ha Hl)|exact (@P_total Y cap h alpha beta eps w0 os Hi Ha Hl)].
Qed.
Print Assumptions C108_probabilities.

(** C108: any quantity computed from a sampled batch of n transitions has the expected value it has for n independent choices of a
    stored transition with probabilities P, delivered with the normalised weights. *)
Theorem C108_law : forall Y cap (h : list (tbatch (Y * R))) alpha beta eps w0 os,
  prio_init h cap alpha beta eps = Ok w0 -> p_no_alias w0 os ->
  let w := prio_run w0 os in let log := p_added w0 os [] in log <> [] ->
  let P := fun k => priority w k / rsum (prio_values w) in
  let raw := fun k => Rpower (P k * INR (prio_len w)) (- pbeta (pb w)) in
  forall n phi F, (1 <= n)%nat ->
  (forall us out, length us = n -> (forall u, In u us -> 0 <= u < 1) -> prio_sample w us = Ok out -> F us = phi out) ->
  mean_units n F (expect (stored cap (length log)) P n (fun ks => phi (delivered log raw ks))).
Proof. intros Y cap h alpha beta eps w0 os Hi Ha w log Hl P raw n phi F. exact (@law Y cap h alpha beta eps w0 os Hi Ha Hl n phi F). Qed.
Print Assumptions C108_law.

(** C108: at every position of the batch, transition k appears with probability P k. *)
Theorem C108_position : forall Y cap (h : list (tbatch (Y * R))) alpha beta eps w0 os,
  prio_init h cap alpha beta eps = Ok w0 -> p_no_alias w0 os ->
  let w := prio_run w0 os in let log := p_added w0 os [] in log <> [] ->
  forall n j k F, (j < n)%nat -> in_window cap (length log) k ->
  (forall us out y W i, length us = n -> (forall u, In u us -> 0 <= u < 1) -> prio_sample w us = Ok out -> nth_error out j = Some (y, W, i) ->
     (i = [Z.of_nat k] -> F us = 1) /\ (i <> [Z.of_nat k] -> F us = 0)) ->
  mean_units n F (priority w k / rsum (prio_values w)).
Proof.
  intros Y cap h alpha beta eps w0 os Hi Ha w log Hl n j k F Hj Hk H.
  pose (f := fun i : list Z => if list_eq_dec Z.eq_dec i [Z.of_nat k] then 1 else 0).
  pose proof (@position Y cap h alpha beta eps w0 os Hi Ha Hl n j f F Hj) as M. cbv beta in M.
  assert (E : sum_over (stored cap (length log)) (fun k' => priority w k' / rsum (prio_values w) * f [Z.of_nat k']) = priority w k / rsum (prio_values w)).
  { apply (@stored_window Y cap h alpha beta eps w0 Hi) in Hk. assert (ND : NoDup (stored cap (length log))) by apply seq_NoDup.
    revert Hk ND. generalize (stored cap (length log)). induction l as [|x l IH]; intros I ND; [destruct I|]. rewrite sum_cons. inversion ND as [|? ? N1 N2]; subst. unfold f at 1. destruct (list_eq_dec Z.eq_dec [Z.of_nat x] [Z.of_nat k]) as [E|E].
    - injection E as E. apply Nat2Z.inj in E. subst x. rewrite (sum_over_ext _ _ (fun _ => 0)); [rewrite sum_over_const; ring|]. intros y Iy. unfold f. destruct (list_eq_dec Z.eq_dec [Z.of_nat y] [Z.of_nat k]) as [E|E]; [|ring]. injection E as E. apply Nat2Z.inj in E. subst y. contradiction.
    - destruct I as [->|I]; [congruence|]. rewrite IH by auto. ring. }
  rewrite <- E. apply M. intros us out y W i L U S N. destruct (H us out y W i L U S N) as [H1 H2]. unfold f. destruct (list_eq_dec Z.eq_dec i [Z.of_nat k]); auto.
Qed.
Print Assumptions C108_position.

(** C108: importance weights with beta = 1.  Without the division by the largest weight of the batch, the mean of the weighted losses
    would be an unbiased estimate of the mean over all stored transitions. *)
Theorem C108_unnormalised_unbiased : forall Y cap (h : list (tbatch (Y * R))) alpha beta eps w0 os,
  prio_init h cap alpha beta eps = Ok w0 -> p_no_alias w0 os ->
  let w := prio_run w0 os in let log := p_added w0 os [] in log <> [] -> pbeta (pb w) = 1 ->
  let raw := fun k => Rpower (priority w k / rsum (prio_values w) * INR (prio_len w)) (- pbeta (pb w)) in
  forall n f F, (1 <= n)%nat ->
  (forall us out, length us = n -> (forall u, In u us -> 0 <= u < 1) -> prio_sample w us = Ok out -> F us = largest (map raw (ids_of out)) * weighted_loss f out) ->
  mean_units n F (sum_over (stored cap (length log)) (loss_of log f) / INR (prio_len w)).
Proof. intros Y cap h alpha beta eps w0 os Hi Ha w log Hl B raw n f F Hn. exact (@unbiased Y cap h alpha beta eps w0 os Hi Ha Hl n f F Hn B). Qed.
Print Assumptions C108_unnormalised_unbiased.

(** C108: with the division, the expected weighted loss lies between N*lo/total and N*hi/total times that mean, for non-negative losses and
    priorities between lo and hi. *)
Theorem C108_bounds : forall Y cap (h : list (tbatch (Y * R))) alpha beta eps w0 os,
  prio_init h cap alpha beta eps = Ok w0 -> p_no_alias w0 os ->
  let w := prio_run w0 os in let log := p_added w0 os [] in log <> [] -> pbeta (pb w) = 1 ->
  forall n f F lo hi, (1 <= n)%nat -> 0 < lo -> (forall k, in_window cap (length log) k -> lo <= priority w k <= hi) ->
  (forall k, in_window cap (length log) k -> 0 <= loss_of log f k) ->
  (forall us out, length us = n -> (forall u, In u us -> 0 <= u < 1) -> prio_sample w us = Ok out -> F us = weighted_loss f out) ->
  exists E, mean_units n F E /\ let N := INR (prio_len w) in let U := sum_over (stored cap (length log)) (loss_of log f) / N in
    N * lo / rsum (prio_values w) * U <= E <= N * hi / rsum (prio_values w) * U.
Proof.
  intros Y cap h alpha beta eps w0 os Hi Ha w log Hl B n f F lo hi Hn Hlo Hp Hf H.
  apply (@bounds Y cap h alpha beta eps w0 os Hi Ha Hl n f F lo hi Hn B Hlo); auto; intros k Hk; [apply Hp|apply Hf]; now apply (@stored_window Y cap h alpha beta eps w0 Hi).
Qed.
Print Assumptions C108_bounds.

(** C108: equal priorities: the expected weighted loss is the mean over the stored transitions, whatever beta. *)
Theorem C108_equal_priorities : forall Y cap (h : list (tbatch (Y * R))) alpha beta eps w0 os,
  prio_init h cap alpha beta eps = Ok w0 -> p_no_alias w0 os ->
  let w := prio_run w0 os in let log := p_added w0 os [] in log <> [] ->
  forall n f F c, (1 <= n)%nat -> (forall k, in_window cap (length log) k -> priority w k = c) ->
  (forall us out, length us = n -> (forall u, In u us -> 0 <= u < 1) -> prio_sample w us = Ok out -> F us = weighted_loss f out) ->
  mean_units n F (sum_over (stored cap (length log)) (loss_of log f) / INR (prio_len w)).
Proof.
  intros Y cap h alpha beta eps w0 os Hi Ha w log Hl n f F c Hn Hp H. destruct (C108_probabilities Y cap h alpha beta eps w0 os Hi Ha Hl) as (SW & PP & PT). fold w log in SW, PP, PT.
  pose proof (@tpos Y cap h alpha beta eps w0 os Hi Ha Hl) as TP. fold w in TP. assert (KL : length (stored cap (length log)) = prio_len w) by exact (@keys_len Y cap h alpha beta eps w0 os Hi Ha).
  pose proof (@lenp Y cap h alpha beta eps w0 os Hi Ha Hl) as LP. fold w in LP. assert (0 < INR n) by (apply (lt_INR 0); lia).
  assert (E : INR (prio_len w) * (c / rsum (prio_values w)) = 1).
  { rewrite <- PT, (sum_over_ext _ _ (fun _ => c / rsum (prio_values w))) by (intros k Hk; apply SW in Hk; now rewrite Hp). now rewrite sum_over_const, KL. }
  assert (RW : forall k, In k (stored cap (length log)) -> Rpower (priority w k / rsum (prio_values w) * INR (prio_len w)) (- pbeta (pb w)) = 1).
  { intros k Hk. apply SW in Hk. rewrite Hp, Rmult_comm, E by auto. unfold Rpower. rewrite ln_1, Rmult_0_r. apply exp_0. }
  pose proof (C108_law Y cap h alpha beta eps w0 os Hi Ha Hl n (weighted_loss f) F Hn H) as M. cbv zeta beta in M. fold w log in M.
  rewrite (@expect_ext _ _ _ n _ (fun ks => / INR n * sum_over ks (loss_of log f))) in M.
  - rewrite expect_scal, expect_sum in M by exact PT. rewrite (sum_over_ext _ _ (fun k => / INR (prio_len w) * loss_of log f k)) in M.
    + rewrite sum_over_scal in M. replace (sum_over (stored cap (length log)) (loss_of log f) / INR (prio_len w)) with (/ INR n * (INR n * (/ INR (prio_len w) * sum_over (stored cap (length log)) (loss_of log f)))); [exact M|]. field. split; lra.
    + intros k Hk. f_equal. apply SW in Hk. rewrite Hp by auto. apply (Rmult_eq_reg_l (INR (prio_len w))); [|lra]. rewrite E. field. lra.
  - intros ks L K. pose proof (@loss_delivered Y cap h alpha beta eps w0 os Hi f ks K) as LD. cbv beta in LD. fold w log in LD. rewrite LD.
    assert (LG : largest (map (fun k => Rpower (priority w k / rsum (prio_values w) * INR (prio_len w)) (- pbeta (pb w))) ks) = 1).
    { rewrite (map_ext_in _ (fun _ => 1)) by auto. destruct ks as [|k ks]; [cbn in L; lia|]. clear. cbn [map largest fold_right]. induction ks as [|x ks IH]; cbn [map fold_right]; [now rewrite Rmax_left by lra|]. rewrite IH. now rewrite Rmax_left by lra. }
    rewrite LG, (sum_over_ext _ _ (loss_of log f)) by (intros k Hk; rewrite RW by auto; ring). rewrite L. field. lra.
Qed.
Print Assumptions C108_equal_priorities.

(** C108: in a batch of one the weight is always the stored one: the correction for the sampling probabilities disappears. *)
Theorem C108_batch_of_one : forall Y cap (h : list (tbatch (Y * R))) alpha beta eps w0 os,
  prio_init h cap alpha beta eps = Ok w0 -> p_no_alias w0 os ->
  let w := prio_run w0 os in let log := p_added w0 os [] in log <> [] ->
  forall f F, (forall u out, 0 <= u < 1 -> prio_sample w [u] = Ok out -> F u = weighted_loss f out) ->
  mean_over_unit F (sum_over (stored cap (length log)) (fun k => priority w k / rsum (prio_values w) * loss_of log f k)).
Proof. intros Y cap h alpha beta eps w0 os Hi Ha w log Hl f F. exact (@batch_of_one Y cap h alpha beta eps w0 os Hi Ha Hl f F). Qed.
Print Assumptions C108_batch_of_one.

(** A buffer with two transitions of priorities 1 and 3. *)
Definition two_heap : list (tbatch (nat * R)) := [mkTB [(0%nat, 1); (1%nat, 1)] []].
Definition two_w0 : pworld nat := mkPW two_heap (mkPB 2 1 1 1 [None; None] (sumtree_init 2) 0).
Definition two_os : list (pop nat) := [PAdd 0 [0; 2]].
Lemma two_init : prio_init two_heap 2 1 1 1 = Ok two_w0.
Proof. unfold prio_init. cbn [Nat.eqb]. repeat (match goal with |- context [Rle_dec ?a ?b] => destruct (Rle_dec a b); [exfalso; lra|] end). reflexivity. Qed.
Lemma two_alias : p_no_alias two_w0 two_os.
Proof. cbn. split; auto. intros [H|[H|[]]]; discriminate. Qed.
Lemma two_log : p_added two_w0 two_os [] = [(0%nat, 1); (1%nat, 1)].
Proof. reflexivity. Qed.
Lemma two_priorities : priority (prio_run two_w0 two_os) 0 = 1 /\ priority (prio_run two_w0 two_os) 1 = 3 /\ rsum (prio_values (prio_run two_w0 two_os)) = 4.
Proof.
  pose proof (@whole_priority nat 2 two_heap 1 1 1 two_w0 two_os two_init two_alias) as P. cbv zeta in P.
  assert (P0 : priority (prio_run two_w0 two_os) 0 = 1). { destruct (P 0%nat (0%nat, 1) (Rabs 0 + 1)) as [-> _]; [rewrite two_log; split; cbn; lia|reflexivity|]. rewrite Rabs_R0, Rplus_0_l. cbn. unfold Rpower. now rewrite ln_1, Rmult_0_r, exp_0. }
  assert (P1 : priority (prio_run two_w0 two_os) 1 = 3). { destruct (P 1%nat (1%nat, 1) (Rabs 2 + 1)) as [-> _]; [rewrite two_log; split; cbn; lia|reflexivity|]. rewrite Rabs_right by lra. cbn. rewrite Rpower_1; lra. }
  split; auto. split; auto. pose proof (@rsum_sum (prio_values (prio_run two_w0 two_os))) as S. rewrite (@vlen nat 2 two_heap 1 1 1 two_w0 two_os two_init two_alias) in S. cbn [seq] in S. rewrite !sum_cons, sum_nil in S.
  rewrite S. rewrite (@priority_nth nat 2 two_heap 1 1 1 two_w0 two_os two_init two_alias) in P0, P1. change (0 mod 2)%nat with 0%nat in P0. change (1 mod 2)%nat with 1%nat in P1. rewrite P0, P1. lra.
Qed.

(** C108 as documented is false: with the default normalisation the expected weighted loss is not proportional to the mean over the stored
    transitions.  Two losses with the same mean 1/2 are estimated by 1/4 and 3/4. *)
Theorem C108_unbiased_refuted : exists cap (h : list (tbatch (nat * R))) w0 os f0 f1, prio_init h cap 1 1 1 = Ok w0 /\ p_no_alias w0 os /\ pbeta (pb (prio_run w0 os)) = 1 /\
  let w := prio_run w0 os in let log := p_added w0 os [] in
  let est := fun f u => match prio_sample w [u] with Ok out => weighted_loss f out | Err _ => 0 end in
  sum_over (stored cap (length log)) (loss_of log f0) / INR (prio_len w) = 1/2 /\ sum_over (stored cap (length log)) (loss_of log f1) / INR (prio_len w) = 1/2 /\
  mean_over_unit (est f0) (1/4) /\ mean_over_unit (est f1) (3/4).
Proof.
  exists 2%nat, two_heap, two_w0, two_os, (fun y => if Nat.eqb y 0 then 1 else 0), (fun y => if Nat.eqb y 0 then 0 else 1). split; [exact two_init|]. split; [exact two_alias|]. split; [reflexivity|]. cbv zeta.
  destruct two_priorities as (P0 & P1 & PT). assert (NL : p_added two_w0 two_os [] <> []) by discriminate.
  pose proof (C108_batch_of_one nat 2 two_heap 1 1 1 two_w0 two_os two_init two_alias NL) as M. rewrite two_log in *. change (stored 2 (length [(0%nat, 1); (1%nat, 1)])) with [0%nat; 1%nat] in *.
  split; [rewrite !sum_cons, sum_nil; unfold loss_of; cbn; field|]. split; [rewrite !sum_cons, sum_nil; unfold loss_of; cbn; field|]. split.
  - match goal with |- mean_over_unit ?F _ => specialize (M (fun y => if Nat.eqb y 0 then 1 else 0) F) end. rewrite !sum_cons, sum_nil, P0, P1, PT in M. unfold loss_of in M. cbn [nth_error Nat.eqb] in M.
    replace (1/4) with (1 / 4 * (1 * 1) + (3 / 4 * (1 * 0) + 0)) by field. apply M. intros u out _ ->. reflexivity.
  - match goal with |- mean_over_unit ?F _ => specialize (M (fun y => if Nat.eqb y 0 then 0 else 1) F) end. rewrite !sum_cons, sum_nil, P0, P1, PT in M. unfold loss_of in M. cbn [nth_error Nat.eqb] in M.
    replace (3/4) with (1 / 4 * (1 * 0) + (3 / 4 * (1 * 1) + 0)) by field. apply M. intros u out _ ->. reflexivity.
Qed.
Print Assumptions C108_unbiased_refuted.

Example C108_example : prio_init two_heap 2 1 1 1 = Ok two_w0 /\ p_no_alias two_w0 two_os /\ p_added two_w0 two_os [] <> [] /\ pbeta (pb (prio_run two_w0 two_os)) = 1 /\
  in_window 2 (length (p_added two_w0 two_os [])) 1 /\ (forall k, in_window 2 (length (p_added two_w0 two_os [])) k -> 1 <= priority (prio_run two_w0 two_os) k <= 3) /\
  (forall k, in_window 2 (length (p_added two_w0 two_os [])) k -> 0 <= loss_of (p_added two_w0 two_os []) (fun _ => 5) k) /\
  exists m, mean_units 3 (fun us => match prio_sample (prio_run two_w0 two_os) us with Ok out => weighted_loss (fun _ => 5) out | Err _ => 0 end) m.
Proof.
  destruct two_priorities as (P0 & P1 & PT). split; [exact two_init|]. split; [exact two_alias|]. split; [discriminate|]. split; [reflexivity|]. rewrite two_log.
  split; [split; cbn; lia|]. split; [|split].
  - intros k [K _]. destruct k as [|[|k]]; [rewrite P0; lra|rewrite P1; lra|cbn in K; lia].
  - intros k [K _]. destruct k as [|[|k]]; [cbn; lra|cbn; lra|cbn in K; lia].
  - eexists. apply (C108_law nat 2 two_heap 1 1 1 two_w0 two_os two_init two_alias ltac:(discriminate) 3 (weighted_loss (fun _ => 5))); [lia|]. intros us out _ _ ->. reflexivity.
Qed.
(** Equal priorities: two transitions added with the same advantage. *)
Example C108_equal_example : p_added two_w0 [PAdd 0 [2; 2]] [] <> [] /\ forall k, in_window 2 (length (p_added two_w0 [PAdd 0 [2; 2]] [])) k -> priority (prio_run two_w0 [PAdd 0 [2; 2]]) k = Rpower (Rabs 2 + 1) 1.
Proof.
  split; [discriminate|]. intros k [K K']. assert (A : p_no_alias two_w0 [PAdd 0 [2; 2]]) by (cbn; split; auto; intros [H|[H|[]]]; discriminate).
  destruct k as [|[|k]]; [| |cbn in K; lia].
  - destruct (@whole_priority nat 2 two_heap 1 1 1 two_w0 [PAdd 0 [2; 2]] two_init A 0%nat (0%nat, 1) (Rabs 2 + 1)) as [-> _]; [split; cbn; lia|reflexivity|reflexivity].
  - destruct (@whole_priority nat 2 two_heap 1 1 1 two_w0 [PAdd 0 [2; 2]] two_init A 1%nat (1%nat, 1) (Rabs 2 + 1)) as [-> _]; [split; cbn; lia|reflexivity|reflexivity].
Qed.
