From Coq Require Import List Lia Bool Arith Reals Lra.
From Verif Require Import PyCommon CommonProofs UtilsModel UtilsSpec UtilsProofs2 UtilsProofs3 WrappersProofs DistModel DistSpec DistProofs DistProofs2 DistProofs3 LossModel LossSpec LossProofs QModel QProofs QProps TDModel TDSpec TDProofs TDProofs2 TDProofs3 TDProofs4 CoreModel CoreSpec CoreProofs CoreProofs2 LearnModel LearnSpec.
Import ListNotations.
Set Implicit Arguments.
Local Open Scope R_scope.

(** * The networks are tables *)
Lemma dot_app : forall a b c d, length a = length c -> dot (a ++ b) (c ++ d) = dot a c + dot b d.
Proof. unfold dot. induction a as [|x a IH]; intros b [|y c] d E; cbn in E; try lia; cbn; [lra|]. rewrite IH by lia. lra. Qed.
Lemma dot_scal : forall c a b, dot (map (Rmult c) a) b = c * dot a b.
Proof. unfold dot. intros c a. induction a as [|x a IH]; intros [|y b]; cbn; try lra. rewrite IH. lra. Qed.
Lemma kron_length : forall s a, length (kron s a) = (length s * length a)%nat.
Proof. unfold kron. induction s as [|x s IH]; intros a; auto. cbn [flat_map]. rewrite app_length, map_length, IH. reflexivity. Qed.
Lemma dot_kron : forall v s th, length th = (length s * length v)%nat ->
  dot (kron s v) th = total (map (fun i => nth i s 0 * dot v (firstn (length v) (skipn (i * length v) th))) (seq 0 (length s))).
Proof.
  intros v s. induction s as [|x s IH]; intros th E; [reflexivity|]. cbn [length] in E. cbn [kron flat_map]. fold (kron s v).
  assert (L1 : length (firstn (length v) th) = length v) by (rewrite firstn_length; lia). assert (L2 : length (skipn (length v) th) = (length s * length v)%nat) by (rewrite skipn_length; lia).
  rewrite <- (firstn_skipn (length v) th) at 1. rewrite dot_app by (now rewrite map_length, L1). rewrite dot_scal, IH by auto. cbn [length seq map nth Nat.mul skipn]. rewrite total_cons. f_equal. rewrite <- seq_shift, map_map. apply total_ext. intros i _. cbn [nth]. do 3 f_equal.
  assert (SS : forall (a b : nat) (l : list R), skipn a (skipn b l) = skipn (b + a) l). { clear. intros a b. revert a. induction b as [|b IH]; intros a l; auto. destruct l; [now rewrite !skipn_nil|]. cbn. apply IH. }
  rewrite SS. f_equal; lia.
Qed.
Definition tq (nA : nat) (th : list R) (s a : nat) : R := nth (s * nA + a) th 0.
Lemma index_lt : forall nS nA s a, (s < nS)%nat -> (a < nA)%nat -> (s * nA + a < nS * nA)%nat.
Proof. intros. nia. Qed.
Lemma index_inj : forall nA s a s' a', (a < nA)%nat -> (a' < nA)%nat -> (s * nA + a = s' * nA + a')%nat -> s = s' /\ a = a'.
Proof. intros nA s a s' a' H H' E. assert (s = s') by nia. subst. split; auto. lia. Qed.
Definition tabular (nS nA : nat) (net : list R -> qfun nat R) : Prop := forall th, length th = (nS * nA)%nat ->
  width nA (net th) /\ forall s v, (s < nS)%nat -> length v = nA -> qat (net th) s v = dot v (map (tq nA th s) (seq 0 nA)).
Lemma row_eq : forall nA th s, (s * nA + nA <= length th)%nat -> firstn nA (skipn (s * nA) th) = map (tq nA th s) (seq 0 nA).
Proof.
  intros nA th s H. apply (@list_eq_nth _ 0).
  - rewrite firstn_length, skipn_length, map_length, seq_length. lia.
  - intros i Hi. rewrite firstn_length, skipn_length in Hi. rewrite nth_firstn_lt by lia. rewrite nth_skipn_add. rewrite (@nth_map_any _ _ _ (seq 0 nA) i 0 0%nat) by (rewrite seq_length; lia). now rewrite seq_nth by lia.
Qed.
Lemma table1_tabular : forall nS nA, tabular nS nA (table1 nS).
Proof.
  intros nS nA th L. split; [exact I|]. intros s v Hs Hv. cbn [table1 qat]. unfold linear. cbn [map seq nth].
  assert (K : length (kron (one_hot nS s) v) = length th) by (rewrite kron_length, one_hot_length, Hv; lia).
  rewrite K. replace (map (fun i => nth (i * 1 + 0) th 0) (seq 0 (length th))) with th.
  2:{ rewrite <- (map_nth_seq th 0) at 1. apply map_ext. intros i. f_equal. lia. }
  rewrite dot_kron by (rewrite one_hot_length, Hv; lia). rewrite one_hot_length.
  rewrite (@total_pick _ nS s Hs).
  - rewrite nth_one_hot by auto. rewrite Nat.eqb_refl, Hv. rewrite row_eq by nia. lra.
  - intros k Hk. destruct (Nat.lt_ge_cases k nS) as [B|B]; [rewrite nth_one_hot by auto; destruct (Nat.eqb_spec k s); [congruence|lra]|]. rewrite (nth_overflow (one_hot nS s)) by (rewrite one_hot_length; lia). lra.
Qed.
Lemma table2_tabular : forall nS nA, tabular nS nA (table2 nS nA).
Proof.
  intros nS nA th L. split; [intros s; unfold linear; now rewrite map_length, seq_length|]. intros s v Hs Hv. cbn [table2 qat]. unfold linear. f_equal. apply map_ext. intros j. rewrite one_hot_length. rewrite dot_one_hot_l by (rewrite ?map_length, ?seq_length; auto). rewrite (@nth_map_any _ _ _ (seq 0 nS) s 0 0%nat) by (now rewrite seq_length). now rewrite seq_nth.
Qed.

Section Tab.
Variables nS nA : nat.
Hypothesis HA : (1 <= nA)%nat.
Variable net : list R -> qfun nat R.
Hypothesis T : tabular nS nA net.
Notation tq := (tq nA).
Lemma tab_qval : forall th s a, length th = (nS * nA)%nat -> (s < nS)%nat -> (a < nA)%nat -> qval nA (net th) s a = tq th s a.
Proof.
  intros th s a L Hs Ha. destruct (T _ L) as [W Q]. rewrite <- (@qat_one_hot nat nA) by auto. rewrite Q by (auto; apply one_hot_length). rewrite dot_one_hot_l by (rewrite ?map_length, ?seq_length; auto). rewrite (@nth_map_any _ _ _ (seq 0 nA) a 0 0%nat) by (now rewrite seq_length). now rewrite seq_nth.
Qed.
Lemma tab_qvals : forall th s, length th = (nS * nA)%nat -> (s < nS)%nat -> map (qval nA (net th) s) (seq 0 nA) = map (tq th s) (seq 0 nA).
Proof. intros th s L Hs. apply map_ext_in. intros a Ha. apply in_seq in Ha. apply tab_qval; auto; lia. Qed.
(** q(s, a) *)
Lemma tab_call : forall th s a, length th = (nS * nA)%nat -> (s < nS)%nat -> (a < nA)%nat -> q_call_a (Some nA) (one_hot nA) (fun x => x) (net th) s a = Ok (tq th s a).
Proof.
  intros th s a L Hs Ha. destruct (T _ L) as [W Q]. unfold q_call_a. change (function_type1 (Some nA) dot (net th) [s] [one_hot nA a]) with (eval1 (Some nA) (net th) [s] [one_hot nA a]).
  rewrite (@eval1_ok nat nA) by (auto; intros x [<-|[]]; apply one_hot_length). cbn [bind combine map fst snd]. rewrite (@qat_one_hot nat nA) by auto. now rewrite tab_qval.
Qed.
Lemma tab_eval : forall th rows, length th = (nS * nA)%nat -> (forall s a, In (s, a) rows -> (s < nS)%nat /\ (a < nA)%nat) ->
  eval1 (Some nA) (net th) (map fst rows) (map (fun r => one_hot nA (snd r)) rows) = Ok (map (fun r => tq th (fst r) (snd r)) rows).
Proof.
  intros th rows L H. destruct (T _ L) as [W Q]. rewrite (@eval1_ok nat nA); auto.
  - f_equal. clear -H T L W. induction rows as [|[s a] rows IH]; auto. cbn [map combine fst snd]. f_equal; [|apply IH; intros; apply H; now right]. destruct (H s a (or_introl eq_refl)) as [Hs Ha]. rewrite (@qat_one_hot nat nA) by auto. now apply tab_qval.
  - now rewrite !map_length.
  - intros a Ha. apply in_map_iff in Ha. destruct Ha as (r & <- & _). apply one_hot_length.
Qed.
(** * The targets *)
Definition sound_target (target : list R -> list R -> tbatch nat -> outcome (list R)) (val : valuation) : Prop :=
  forall th0 targ b, length targ = (nS * nA)%nat -> well_formed b -> (forall s, In s (tb_Snext b) -> (s < nS)%nat) ->
  exists out, target th0 targ b = Ok out /\ bootstrapped (fun x => x) (fun x => x) b (fun _ s x => val s (tq targ s) x) out.
Lemma max_ext : forall h h' m, (forall a, (a < nA)%nat -> h a = h' a) -> is_maximum nA h m -> is_maximum nA h' m.
Proof. intros h h' m E [[a [Ha M]] B]. split; [exists a; split; auto; now rewrite <- E|]. intros c Hc. rewrite <- E by auto. auto. Qed.
Lemma target_q_sound : sound_target (target_q nA net) (by_max nA).
Proof.
  intros th0 targ b L WF Hs. destruct (T _ L) as [W Q]. unfold target_q. rewrite (@q_learning_eval nat nA) by auto. apply finish_rows; auto; [now rewrite map_length|]. intros k s Hk. rewrite (nth_map_error _ _ _ Hk). assert (In s (tb_Snext b)) by (eapply nth_error_In; eauto). rewrite tab_qvals by auto.
  rewrite Q by (auto; rewrite greedy_length, map_length, seq_length; auto). rewrite greedy_max by (apply vals_ne; auto). apply (@rowmax_is nA); auto.
Qed.
Lemma expect_tab : forall l h h', (forall a, (a < nA)%nat -> h a = h' a) -> expectation nA (boltzmann nA l) h = expectation nA (boltzmann nA l) h'.
Proof. intros l h h' E. unfold expectation. apply total_ext. intros a Ha. apply in_seq in Ha. rewrite E by lia. reflexivity. Qed.
Lemma target_expected_sound : forall pi, (forall s, length (pi s) = nA) -> sound_target (target_expected nA net pi) (by_policy nA pi).
Proof.
  intros pi Hp th0 targ b L WF Hs. destruct (T _ L) as [W Q]. unfold target_expected, expected_sarsa. rewrite (@eval1_ok nat nA); auto.
  - cbn [bind]. rewrite (map_combine_self (fun s => softmax (pi s)) (fun sa => qat (net targ) (fst sa) (snd sa))). apply finish_rows; auto; [now rewrite map_length|]. intros k s Hk. assert (In s (tb_Snext b)) by (eapply nth_error_In; eauto). rewrite (nth_map_error _ _ _ Hk). cbn [fst snd]. rewrite Q by (auto; now rewrite softmax_length). unfold by_policy. now apply dot_softmax.
  - now rewrite map_length.
  - intros a Ha. apply in_map_iff in Ha. destruct Ha as (s & <- & _). now rewrite softmax_length.
Qed.
Lemma target_soft_sound : forall t, sound_target (target_soft nA net t) (by_soft nA t).
Proof.
  intros t th0 targ b L WF Hs. destruct (T _ L) as [W Q]. unfold target_soft. destruct (@soft_rows nat nA HA (fun x => x) (fun x => x) t (net targ) b W WF) as (out & E & [Lo B]). exists out. split; auto. split; auto. intros k s Hk. destruct (B k s Hk) as (x & -> & Ex). eexists. split; [reflexivity|]. rewrite Ex. do 2 f_equal.
  unfold soft_maximum. do 2 f_equal. apply total_ext. intros a Ha. apply in_seq in Ha. rewrite tab_qval; auto; try lia. apply Hs. eapply nth_error_In; eauto.
Qed.
End Tab.

(** Valuations do not expand distances. *)
Definition nonexpansive (nA : nat) (val : valuation) : Prop := forall s h h' m m' eps, (forall a, (a < nA)%nat -> Rabs (h a - h' a) <= eps) -> val s h m -> val s h' m' -> Rabs (m - m') <= eps.
Lemma by_max_nonexp : forall nA, nonexpansive nA (by_max nA).
Proof. intros nA s h h' m m' eps H M M'. exact (@maximum_close nA h h' m m' eps H M M'). Qed.
Lemma by_policy_nonexp : forall nA, (1 <= nA)%nat -> forall pi, (forall s, length (pi s) = nA) -> nonexpansive nA (by_policy nA pi).
Proof. intros nA Hn pi Hp s h h' m m' eps H -> ->. apply expectation_close; auto. Qed.
Lemma by_soft_nonexp : forall nA, (1 <= nA)%nat -> forall t, 0 < t -> nonexpansive nA (by_soft nA t).
Proof. intros nA Hn t Ht s h h' m m' eps H -> ->. rewrite !soft_lse. apply lse_close; auto. Qed.
