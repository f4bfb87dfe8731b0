From Coq Require Import List Lia Bool Arith Reals Lra.
From Verif Require Import PyCommon CommonProofs UtilsModel UtilsSpec UtilsProofs2 UtilsProofs3 WrappersProofs DistModel DistSpec DistProofs DistProofs2 DistProofs3 LossModel LossSpec LossProofs QModel QProofs QProps TDModel TDSpec TDProofs TDProofs2 TDProofs3.
Import ListNotations.
Set Implicit Arguments.
Local Open Scope R_scope.

Section R.
Variable St : Type.
Notation qf := (qfun St R).
Implicit Types b : tbatch St.
Lemma simple_rows : forall f g (v : St -> R) b, well_formed b -> exists out, simple_td f g v b = Ok out /\ bootstrapped f g b (fun _ s x => x = v s) out.
Proof. intros f g v b W. apply finish_rows; auto; [now rewrite map_length|]. intros k s Hs. now rewrite (nth_map_error _ _ _ Hs). Qed.
Variable n : nat.
Hypothesis Hn : (1 <= n)%nat.
Lemma sarsa_rows : forall f g (q : qf) b acts, width n q -> well_formed b -> length acts = length (tb_Snext b) -> (forall a, In a acts -> (a < n)%nat) -> tb_Anext b = map (one_hot n) acts ->
  exists out, sarsa (Some n) f g q b = Ok out /\ bootstrapped f g b (fun k s x => x = qval n q s (nth k acts 0%nat)) out.
Proof.
  intros f g q b acts W WF L H E. unfold sarsa. rewrite E. rewrite (@eval1_ok St n); auto.
  - cbn [bind]. apply finish_rows; auto; [rewrite map_length, combine_length, map_length; lia|]. intros k s Hs. assert (K : (k < length acts)%nat) by (rewrite L; apply nth_error_Some; congruence).
    assert (Ea : nth_error (map (one_hot n) acts) k = Some (one_hot n (nth k acts 0%nat))) by (apply map_nth_error; apply nth_error_nth'; auto).
    rewrite (nth_map_combine _ _ _ _ Hs Ea). cbn [fst snd]. apply qat_one_hot; auto. apply H. now apply nth_In.
  - now rewrite map_length.
  - intros a Ha. apply in_map_iff in Ha. destruct Ha as (c & <- & _). apply one_hot_length.
Qed.
Lemma sumexp_seq : forall l, length l = n -> sumexp l = total (map (fun c => exp (nth c l 0)) (seq 0 n)).
Proof. intros l L. rewrite <- (map_nth_seq l 0) at 1. now rewrite sumexp_total, L. Qed.
Lemma dot_softmax : forall l h, length l = n -> dot (softmax l) (map h (seq 0 n)) = expectation n (boltzmann n l) h.
Proof.
  intros l h L. rewrite dot_seq by (now rewrite softmax_length, map_length, seq_length). rewrite softmax_length, L. unfold expectation. apply total_ext. intros k Hk. apply in_seq in Hk. rewrite nth_softmax by lia. rewrite (@nth_map_any _ _ _ (seq 0 n) k 0 0%nat) by (rewrite seq_length; lia). rewrite seq_nth by lia. cbn [Nat.add].
  unfold boltzmann. now rewrite sumexp_seq.
Qed.
Lemma expected_rows : forall f g pi (q : qf) b, width n q -> type2 q -> (forall s, length (pi s) = n) -> well_formed b ->
  exists out, expected_sarsa (Some n) f g pi q b = Ok out /\ bootstrapped f g b (fun _ s x => x = expectation n (boltzmann n (pi s)) (qval n q s)) out.
Proof.
  intros f g pi q b W T Hp WF. unfold expected_sarsa. rewrite (@eval1_ok St n); auto.
  - cbn [bind]. rewrite (map_combine_self (fun s => softmax (pi s)) (fun sa => qat q (fst sa) (snd sa))). apply finish_rows; auto; [now rewrite map_length|]. intros k s Hs. rewrite (nth_map_error _ _ _ Hs). cbn [fst snd]. rewrite (@qat_mix2 St n) by (auto; now rewrite softmax_length). now apply dot_softmax.
  - now rewrite map_length.
  - intros a Ha. apply in_map_iff in Ha. destruct Ha as (s & <- & _). now rewrite softmax_length.
Qed.
Lemma boltzmann_dist : forall l, length l = n -> distribution (map (boltzmann n l) (seq 0 n)).
Proof.
  intros l L. assert (E : map (boltzmann n l) (seq 0 n) = softmax l).
  { apply (@list_eq_nth _ 0); [now rewrite map_length, seq_length, softmax_length|]. intros k Hk. rewrite map_length, seq_length in Hk. rewrite (@nth_map_any _ _ _ (seq 0 n) k 0 0%nat) by (now rewrite seq_length). rewrite seq_nth by auto. rewrite nth_softmax by lia. unfold boltzmann. cbn [Nat.add]. now rewrite sumexp_seq. }
  rewrite E. destruct (@softmax_dist l) as [A B]; [intros ->; cbn in L; lia|]. split; auto. intros x Hx. left. auto.
Qed.
Lemma expectation_close : forall l h h' eps, length l = n -> (forall a, (a < n)%nat -> Rabs (h a - h' a) <= eps) -> Rabs (expectation n (boltzmann n l) h - expectation n (boltzmann n l) h') <= eps.
Proof.
  intros l h h' eps L H. rewrite <- !dot_softmax by auto. apply (@expect_close n); auto; [now rewrite softmax_length|]. destruct (@softmax_dist l) as [A B]; [intros ->; cbn in L; lia|]. split; auto. intros x Hx. left. auto.
Qed.
Lemma soft_rows : forall f g t (q : qf) b, width n q -> well_formed b -> exists out, soft_q (Some n) (one_hot n) f g n t q b = Ok out /\ bootstrapped f g b (fun _ s x => x = soft_maximum n t (qval n q s)) out.
Proof.
  intros f g t q b W WF. unfold soft_q. rewrite eval2_ok by auto. cbn [bind]. rewrite check_ok2. cbn [bind]. apply finish_rows; auto; [now rewrite !map_length|]. intros k s Hs. rewrite map_map. rewrite (nth_map_error _ _ _ Hs). unfold soft_maximum. now rewrite map_map, sumexp_total.
Qed.
Lemma soft_lse : forall t h, soft_maximum n t h = lse t (map h (seq 0 n)).
Proof. intros t h. unfold soft_maximum, lse. now rewrite map_map, sumexp_total. Qed.
(** Values of the q-functions at the target policies' actions. *)
Lemma clipped_pi_rows : forall D f (acts : list (St -> list R)) (qs : list ((St -> list R -> R) * (R -> R))) b, (2 <= length qs * length acts)%nat -> well_formed b ->
  exists out, clipped_double_q_pi D f acts (map (fun q => (Type1 (fst q), snd q)) qs) b = Ok out /\
  bootstrapped f (fun x => x) b (fun _ s m => is_minimum_of (concat (map (fun pi => map (fun q => snd q (fst q s (pi s))) qs) acts)) m) out.
Proof.
  intros D f acts qs b L WF. unfold clipped_double_q_pi. rewrite map_length. destruct (Nat.ltb_spec (length qs * length acts) 2); [lia|]. rewrite clipped_pairs_pi_ok. cbn [bind]. set (ps := concat _).
  unfold clipped_finish. change (bootstrap f (fun x => x) (tb_Rn b) (tb_In b)) with (finish f (fun x => x) b). apply finish_rows; auto; [now rewrite map_length, seq_length|]. intros k s Hs. assert (K : (k < length (tb_Snext b))%nat) by (apply nth_error_Some; congruence).
  rewrite (@nth_map_any _ _ _ (seq 0 (length (tb_Snext b))) k 0 0%nat) by (now rewrite seq_length). rewrite seq_nth by auto. cbn [Nat.add].
  assert (E : pair_row ps k = concat (map (fun pi => map (fun q => snd q (fst q s (pi s))) qs) acts)).
  { unfold pair_row, ps. rewrite concat_map, map_map. f_equal. apply map_ext. intros pi. rewrite map_map. apply map_ext. intros q. cbn [fst]. now rewrite (nth_map_error _ _ _ Hs). }
  rewrite E. apply rowmin_spec. intros C. apply (f_equal (@length R)) in C. rewrite (@length_concat_const _ _ (length qs)) in C; [rewrite map_length in C; cbn in C; lia|]. intros x Hx. apply in_map_iff in Hx. destruct Hx as (pi & <- & _). apply map_length.
Qed.
End R.
Lemma min_close : forall (A : Type) (h h' : A -> R) l m m' eps, (forall a, In a l -> Rabs (h a - h' a) <= eps) -> is_minimum_of (map h l) m -> is_minimum_of (map h' l) m' -> Rabs (m - m') <= eps.
Proof.
  intros A h h' l m m' eps H [I U] [I' U']. apply in_map_iff in I. destruct I as (a & <- & Ha). apply in_map_iff in I'. destruct I' as (c & <- & Hc). pose proof (H a Ha) as H1. pose proof (H c Hc) as H2. pose proof (U (h c) (in_map h l c Hc)). pose proof (U' (h' a) (in_map h' l a Ha)).
  unfold Rabs in *. destruct (Rcase_abs (h a - h' a)), (Rcase_abs (h c - h' c)), (Rcase_abs (h a - h' c)); lra.
Qed.
(** The soft maximum approaches the maximum as the temperature goes to zero. *)
Lemma soft_limit : forall n h m, (1 <= n)%nat -> is_maximum n h m -> forall eps, 0 < eps -> exists t0, 0 < t0 /\ forall t, 0 < t <= t0 -> Rabs (soft_maximum n t h - m) <= eps.
Proof.
  intros n h m Hn M eps He. assert (L : 0 <= ln (INR n)). { rewrite <- ln_1. apply ln_le'; [lra|]. replace 1 with (INR 1) by reflexivity. apply le_INR. lia. }
  exists (eps / (ln (INR n) + 1)). split; [apply Rmult_lt_0_compat; auto; apply Rinv_0_lt_compat; lra|]. intros t [Ht Hle]. rewrite soft_lse. pose proof (@lse_bounds n Hn t h m Ht M) as [A B]. apply abs_between. assert (C : t * ln (INR n) <= eps); [|lra].
  apply (Rmult_le_compat_r (ln (INR n) + 1)) in Hle; [|lra]. unfold Rdiv in Hle. rewrite Rmult_assoc, Rinv_l, Rmult_1_r in Hle by lra. nra.
Qed.
