(** Differentiable policies: networks with differentiable logits, linear layers on one-hot encodings; gradients exist. *)
From Coq Require Import List Lia Bool Arith Reals Lra.
From Verif Require Import PyCommon CommonProofs UtilsModel UtilsSpec UtilsProofs2 UtilsProofs3 WrappersProofs DistModel DistSpec DistProofs LossModel LossSpec LossProofs QModel QProofs TDModel TDSpec TDProofs CoreModel TracerModel WorkerModel PolicyModel PolicySpec PolicyProofs PolicyProofs4 CompProofs2 LearnModel LearnProofs6 PgModel PgSpec PgProofs PgProofs2 PgProofs3.
Import ListNotations.
Set Implicit Arguments.
Local Open Scope R_scope.

Lemma continuity_total : forall (A : Type) (f : A -> R -> R) x l, (forall a, In a l -> continuity_pt (f a) x) -> continuity_pt (fun u => total (map (fun a => f a u) l)) x.
Proof.
  intros A f x l. induction l as [|a l IH]; intros H.
  - apply (derivable_continuous_at (derivable_pt_lim_const 0 x)).
  - apply (@continuity_pt_plus (f a) (fun u => total (map (fun a => f a u) l))); [apply H; now left|]. apply IH. intros b Hb. apply H. now right.
Qed.
Lemma total_swap : forall (A B : Type) (f : A -> B -> R) l m, total (map (fun a => total (map (f a) m)) l) = total (map (fun b => total (map (fun a => f a b) l)) m).
Proof.
  intros A B f l m. induction l as [|a l IH]; cbn [map].
  - change (total []) with 0. rewrite total_const. lra.
  - rewrite total_cons, IH, <- total_plus. apply total_ext. intros b _. now rewrite total_cons.
Qed.

Section Logits.
Variables nA N : nat.
Variable net : list R -> nat -> list R.
Variable jac : list R -> nat -> nat -> nat -> R.
Hypothesis HA : (1 <= nA)%nat.
Hypothesis HL : forall th s, length th = N -> length (net th s) = nA.
Hypothesis HJ : forall s a, (a < nA)%nat -> smooth N (fun th => nth a (net th s) 0) (fun th i => jac th s a i).
Definition softmax_score (th : list R) (s a i : nat) : R := jac th s a i - expectation nA (prob nA net th s) (fun c => jac th s c i).
Lemma net_moves : forall c t x s, velocity N c t x -> moves nA (fun u => net (c u) s) t (fun a => total (map (fun i => jac (c t) s a i * x i) (seq 0 N))).
Proof. intros c t x s V. split; [intros u; apply HL, V|]. intros a Ha. destruct (HJ s Ha) as [D _]. exact (D c t x V). Qed.
Lemma logits_smooth : smooth_policy nA N net softmax_score.
Proof.
  split; auto. split; auto. intros s a Ha.
  assert (DL : forall c t x a, (a < nA)%nat -> velocity N c t x -> derivable_pt_lim (fun u => ln (prob nA net (c u) s a)) t (total (map (fun i => softmax_score (c t) s a i * x i) (seq 0 N)))).
  { clear a Ha. intros c t x a Ha V. pose proof (@PolicyProofs4.score nA _ t _ a HA (net_moves s V) Ha) as D. cbv beta in D.
    match type of D with derivable_pt_lim _ _ ?r => replace (total (map (fun i => softmax_score (c t) s a i * x i) (seq 0 N))) with r end; [exact D|]. unfold softmax_score.
    rewrite (@total_ext _ (fun i => (jac (c t) s a i - expectation nA (prob nA net (c t) s) (fun c0 => jac (c t) s c0 i)) * x i) (fun i => jac (c t) s a i * x i - total (map (fun c0 => prob nA net (c t) s c0 * (jac (c t) s c0 i * x i)) (seq 0 nA)))).
    - rewrite total_minus. f_equal. unfold expectation. rewrite (@total_ext _ (fun a0 => boltzmann nA (net (c t) s) a0 * total (map (fun i => jac (c t) s a0 i * x i) (seq 0 N))) (fun c0 => total (map (fun i => prob nA net (c t) s c0 * (jac (c t) s c0 i * x i)) (seq 0 N)))) by (intros; now rewrite total_scal). apply total_swap.
    - intros i _. rewrite Rmult_minus_distr_r. f_equal. unfold expectation. rewrite Rmult_comm, <- total_scal. apply total_ext. intros c0 _. lra. }
  split; [intros; now apply DL|]. intros c t x i Hi V. unfold softmax_score, expectation.
  assert (CJ : forall a, (a < nA)%nat -> continuity_pt (fun u => jac (c u) s a i) t). { intros b Hb. destruct (HJ s Hb) as [_ C]. exact (C c t x i Hi V). }
  apply (@continuity_pt_minus (fun u => jac (c u) s a i) (fun u => total (map (fun a => prob nA net (c u) s a * jac (c u) s a i) (seq 0 nA)))); [now apply CJ|].
  apply (@continuity_total nat (fun a u => prob nA net (c u) s a * jac (c u) s a i)). intros b Hb. apply in_seq in Hb. apply (@continuity_pt_mult (fun u => prob nA net (c u) s b) (fun u => jac (c u) s b i)); [|apply CJ; lia].
  apply (@derivable_continuous_at _ t (exp (ln (prob nA net (c t) s b)) * total (map (fun i => softmax_score (c t) s b i * x i) (seq 0 N)))). apply (@derivable_pt_lim_same (fun u => exp (ln (prob nA net (c u) s b)))).
  - intros u. apply exp_ln. unfold prob. apply boltzmann_pos; [apply HL, V|lia].
  - apply (@derivable_pt_lim_comp (fun u => ln (prob nA net (c u) s b)) exp t); [apply DL; auto; lia|apply derivable_pt_lim_exp].
Qed.
End Logits.

(** * Linear layers on one-hot encodings *)
Lemma table_logit : forall nS nA th s a, (a < nA)%nat -> nth a (logit_table nS nA th s) 0 = if Nat.ltb s nS then nth (s * nA + a) th 0 else 0.
Proof.
  intros nS nA th s a Ha. unfold logit_table, linear. rewrite (@nth_map_any _ _ _ (seq 0 nA) a 0 0%nat) by (now rewrite seq_length). rewrite seq_nth by auto. cbn [Nat.add]. rewrite one_hot_length. destruct (Nat.ltb_spec s nS) as [Hs|Hs].
  - rewrite dot_one_hot_l by (rewrite ?map_length, ?seq_length; auto). rewrite (@nth_map_any _ _ _ (seq 0 nS) s 0 0%nat) by (now rewrite seq_length). now rewrite seq_nth.
  - rewrite dot_seq by now rewrite one_hot_length, map_length, seq_length. rewrite one_hot_length. rewrite (@total_ext _ _ (fun _ => 0)); [rewrite total_const; lra|]. intros k Hk. apply in_seq in Hk. rewrite nth_one_hot by lia. destruct (Nat.eqb_spec k s); [lia|lra].
Qed.
Lemma table_length : forall nS nA th s, length (logit_table nS nA th s) = nA.
Proof. intros. unfold logit_table, linear. now rewrite map_length, seq_length. Qed.
Lemma table_b_logit : forall nS nA th s a, (a < nA)%nat -> length th = (nA + nS * nA)%nat -> nth a (logit_table_b nS nA th s) 0 = nth a th 0 + if Nat.ltb s nS then nth (nA + (s * nA + a)) th 0 else 0.
Proof.
  intros nS nA th s a Ha L. unfold logit_table_b. rewrite (@nth_zipw Rplus _ _ _ 0 0) by (rewrite ?firstn_length; fold (logit_table nS nA (skipn nA th) s); rewrite ?table_length; lia). fold (logit_table nS nA (skipn nA th) s). rewrite table_logit by auto. f_equal.
  - rewrite <- (firstn_skipn nA th) at 2. rewrite app_nth1; [reflexivity|]. rewrite firstn_length. lia.
  - destruct (Nat.ltb s nS); auto. rewrite <- (firstn_skipn nA th) at 2. rewrite app_nth2; rewrite firstn_length, Nat.min_l by lia; [f_equal; lia|lia].
Qed.
Lemma table_b_length : forall nS nA th s, length th = (nA + nS * nA)%nat -> length (logit_table_b nS nA th s) = nA.
Proof. intros nS nA th s L. unfold logit_table_b. fold (logit_table nS nA (skipn nA th) s). rewrite zipw_length; rewrite ?firstn_length, ?table_length; lia. Qed.

(** A sum of parameters has constant partial derivatives. *)
Lemma smooth_sum : forall N (F : list R -> R) (d : nat -> R), (forall th, length th = N -> F th = total (map (fun i => d i * nth i th 0) (seq 0 N))) -> smooth N F (fun _ i => d i).
Proof.
  intros N F d E. split.
  - intros c t x [Lc V]. apply (@derivable_pt_lim_same (fun u => total (map (fun i => d i * nth i (c u) 0) (seq 0 N)))); [intros u; symmetry; now apply E|].
    apply (@deriv_total nat (fun i u => d i * nth i (c u) 0) (fun i _ => d i * x i)). intros i Hi. apply in_seq in Hi. apply (@derivable_pt_lim_scal (fun u => nth i (c u) 0)). apply V. lia.
  - intros c t x i Hi V. apply (derivable_continuous_at (derivable_pt_lim_const (d i) t)).
Qed.
Definition table_jac (nS nA : nat) (_ : list R) (s a i : nat) : R := if Nat.ltb s nS && Nat.eqb i (s * nA + a) then 1 else 0.
Definition table_b_jac (nS nA : nat) (_ : list R) (s a i : nat) : R := (if Nat.eqb i a then 1 else 0) + (if Nat.ltb s nS && Nat.eqb i (nA + (s * nA + a)) then 1 else 0).
Lemma sum_pick : forall N (th : list R) k, (k < N)%nat -> total (map (fun i => (if Nat.eqb i k then 1 else 0) * nth i th 0) (seq 0 N)) = nth k th 0.
Proof. intros N th k Hk. rewrite (@total_pick _ N k Hk); [rewrite Nat.eqb_refl; lra|]. intros j Hj. destruct (Nat.eqb_spec j k); [contradiction|lra]. Qed.
Lemma table_smooth : forall nS nA, (1 <= nA)%nat -> smooth_policy nA (nS * nA) (logit_table nS nA) (softmax_score nA (logit_table nS nA) (table_jac nS nA)).
Proof.
  intros nS nA HA. apply logits_smooth; auto; [intros; apply table_length|]. intros s a Ha. unfold table_jac. apply smooth_sum. intros th L. rewrite table_logit by auto. destruct (Nat.ltb_spec s nS) as [Hs|Hs]; cbn [andb].
  - rewrite sum_pick; auto. nia.
  - rewrite (@total_ext _ _ (fun _ => 0)) by (intros; lra). rewrite total_const. lra.
Qed.
Lemma table_b_smooth : forall nS nA, (1 <= nA)%nat -> smooth_policy nA (nA + nS * nA) (logit_table_b nS nA) (softmax_score nA (logit_table_b nS nA) (table_b_jac nS nA)).
Proof.
  intros nS nA HA. apply logits_smooth; auto; [intros; now apply table_b_length|]. intros s a Ha. unfold table_b_jac. apply smooth_sum. intros th L. rewrite table_b_logit by auto. rewrite (@total_ext _ _ (fun i => (if Nat.eqb i a then 1 else 0) * nth i th 0 + (if Nat.ltb s nS && Nat.eqb i (nA + (s * nA + a)) then 1 else 0) * nth i th 0)) by (intros; lra). rewrite total_plus. f_equal.
  - rewrite sum_pick; auto. lia.
  - destruct (Nat.ltb_spec s nS) as [Hs|Hs]; cbn [andb].
    + rewrite sum_pick; auto. nia.
    + rewrite (@total_ext _ _ (fun _ => 0)) by (intros; lra). rewrite total_const. lra.
Qed.

(** * Gradients exist *)
Lemma loss_row : forall nA N net score b s a w g p, smooth_policy nA N net score -> fb_S b = [s] -> fb_A b = [one_hot nA a] -> fb_W b = [w] -> length p = N -> (a < nA)%nat -> pg_loss nA net b [g] p = Ok (Some (- (imp [w] 0 * g * ln (prob nA net p s a)))).
Proof.
  intros nA N net score b s a w g p (H1 & H2 & _) HS HAc HW L Ha. unfold pg_loss, pg_objective. rewrite HS, HAc, HW. cbn [vmap2 bind collect fst snd]. rewrite logp_boltzmann by auto. cbn [bind]. rewrite (@vanilla_value [w] [g] [ln (boltzmann nA (net p s) a)] 1) by (auto; lia). cbn [policy_loss bind option_map]. do 3 f_equal.
  unfold weighted_mean. cbn [seq map nth]. rewrite total_cons. change (total []) with 0. change (INR 1) with 1. unfold PgSpec.prob. lra.
Qed.
Lemma grads_exist : forall nA N net score, smooth_policy nA N net score -> exists grads, pg_differentiates nA N net grads.
Proof.
  intros nA N net score SM. exists (fun th b Adv => map (fun i => - (imp (fb_W b) 0 * nth 0 Adv 0 * score th (hd 0%nat (fb_S b)) (decode (hd [] (fb_A b))) i)) (seq 0 N)).
  intros th b g s a w L Ha HS HAc HW. split; [now rewrite map_length, seq_length|]. intros i Hi. rewrite L in Hi. rewrite (@nth_map_any _ _ _ (seq 0 N) i 0 0%nat) by (rewrite seq_length; lia). rewrite seq_nth by lia. cbn [Nat.add]. rewrite HS, HAc, HW. cbn [hd nth]. rewrite decode_one_hot by auto.
  apply (@derivable_pt_lim_same (fun t => - (imp [w] 0 * g * ln (prob nA net (firstn i th ++ t :: skipn (S i) th) s a)))).
  - intros u. erewrite loss_row; eauto; [reflexivity|]. now apply (@coordinate_velocity N th i L Hi).
  - apply (@derivable_pt_lim_opp (fun t => imp [w] 0 * g * ln (prob nA net (firstn i th ++ t :: skipn (S i) th) s a))). apply (@derivable_pt_lim_scal (fun t => ln (prob nA net (firstn i th ++ t :: skipn (S i) th) s a))). destruct SM as (_ & _ & H3). apply (@coordinate_deriv N (fun th => ln (prob nA net th s a)) (fun th i => score th s a i)); auto.
Qed.

(** * Rows of a table *)
Lemma table_score_row : forall nS nA th s s' a, (a < nA)%nat -> (s' < nS)%nat -> (1 <= nA)%nat ->
  total (map (fun b => softmax_score nA (logit_table nS nA) (table_jac nS nA) th s a (s' * nA + b)) (seq 0 nA)) = 0.
Proof.
  intros nS nA th s s' a Ha Hs' HA. assert (J : forall c, (c < nA)%nat -> total (map (fun b => table_jac nS nA th s c (s' * nA + b)) (seq 0 nA)) = if Nat.eqb s s' then 1 else 0).
  { intros c Hc. unfold table_jac. destruct (Nat.eqb_spec s s') as [->|NE].
    - rewrite (@total_pick _ nA c Hc); [|intros k Hk; destruct (Nat.eqb_spec (s' * nA + k) (s' * nA + c)); [lia|now rewrite andb_false_r]]. rewrite Nat.eqb_refl. destruct (Nat.ltb_spec s' nS); [reflexivity|lia].
    - rewrite (@total_ext _ _ (fun _ => 0)); [rewrite total_const; lra|]. intros b Hb. apply in_seq in Hb. destruct (Nat.eqb_spec (s' * nA + b) (s * nA + c)) as [E|_]; [|now rewrite andb_false_r]. exfalso. apply NE. destruct (Nat.lt_trichotomy s s') as [H|[H|H]]; auto; nia. }
  unfold softmax_score. rewrite total_minus, (J a Ha). unfold expectation. rewrite (@total_swap nat nat (fun b c => prob nA (logit_table nS nA) th s c * table_jac nS nA th s c (s' * nA + b)) (seq 0 nA) (seq 0 nA)).
  rewrite (@total_ext _ _ (fun c => (if Nat.eqb s s' then 1 else 0) * prob nA (logit_table nS nA) th s c)).
  - rewrite total_scal. rewrite (@total_ext _ (fun c => prob nA (logit_table nS nA) th s c) (boltzmann nA (logit_table nS nA th s))) by reflexivity. rewrite (@CompProofs4.boltzmann_total nA (logit_table nS nA th s)) by (auto; apply table_length). lra.
  - intros c Hc. apply in_seq in Hc. rewrite total_scal, (J c) by lia. lra.
Qed.
Lemma table_row_sum : forall nS nA lr gamma th es s, (1 <= nA)%nat -> length th = (nS * nA)%nat -> legal_actions nA es -> (s < nS)%nat ->
  total (map (fun b => nth (s * nA + b) (ascend (nS * nA) (softmax_score nA (logit_table nS nA) (table_jac nS nA)) lr gamma th es) 0) (seq 0 nA)) = total (map (fun b => nth (s * nA + b) th 0) (seq 0 nA)).
Proof.
  intros nS nA lr gamma th es s HA L LA Hs. induction es as [|[[s1 a1] r1] es IH]; [reflexivity|]. assert (Ha := LA s1 a1 r1 ltac:(now left)). rewrite <- (IH (legal_tail LA)). cbn [ascend]. set (th1 := ascend _ _ _ _ th es). set (G := discounted gamma ((s1, a1, r1) :: es)).
  rewrite (@total_ext _ _ (fun b => nth (s * nA + b) th1 0 + lr * G * softmax_score nA (logit_table nS nA) (table_jac nS nA) th1 s1 a1 (s * nA + b))).
  - rewrite total_plus, total_scal, table_score_row by auto. rewrite Rmult_0_r, Rplus_0_r. reflexivity.
  - intros b Hb. apply in_seq in Hb. rewrite (@nth_map_any _ _ _ (seq 0 (nS * nA)) _ 0 0%nat) by (rewrite seq_length; nia). rewrite seq_nth by nia. cbn [Nat.add]. rewrite Rmult_assoc. reflexivity.
Qed.
