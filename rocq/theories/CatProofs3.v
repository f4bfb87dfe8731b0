(** Exact updates of the tables of logits. *)
From Coq Require Import List Lia Bool Arith Reals Lra.
From Verif Require Import PyCommon CommonProofs UtilsModel UtilsSpec UtilsProofs2 UtilsProofs3 DistModel DistSpec DistProofs DistProofs2 DistProofs3 LossModel LossSpec LossProofs QModel QProofs TDModel TDSpec TDProofs TDProofs3 CoreModel CoreSpec CoreProofs CoreProofs2 StochModel StochProofs LearnModel LearnProofs LearnProofs2 LearnProofs3 MbModel MbProofs DpgProofs CatModel CatSpec CatProofs CatProofs2.
Import ListNotations.
Set Implicit Arguments.
Local Open Scope R_scope.

Lemma nth_seq_map : forall (f : nat -> R) n k, (k < n)%nat -> nth k (map f (seq 0 n)) 0 = f k.
Proof. intros f n k H. rewrite (@nth_map_any _ _ _ (seq 0 n) k 0 0%nat) by (now rewrite seq_length). now rewrite seq_nth. Qed.
Section Net.
Variables nS nA K : nat.
Variables lo hi : R.
Hypotheses (HK : (2 <= K)%nat) (Hlh : lo < hi).
Definition lgl (w : list R) (s a : nat) : list R := map (logit nA K w s a) (seq 0 K).
Lemma lgl_length : forall w s a, length (lgl w s a) = K. Proof. intros. unfold lgl. now rewrite map_length, seq_length. Qed.
Lemma logits_row : forall w s a, (s < nS)%nat -> (a < nA)%nat -> linear K w (kron (one_hot nS s) (one_hot nA a)) = lgl w s a.
Proof.
  intros w s a Hs Ha. unfold linear, lgl. apply map_ext. intros j. rewrite kron_length, !one_hot_length. rewrite kron_pick by (rewrite ?map_length, ?seq_length; auto). assert (X := index_lt Hs Ha). rewrite (@nth_map_any _ _ _ (seq 0 (nS * nA)) _ 0 0%nat) by (now rewrite seq_length). rewrite seq_nth by auto. reflexivity.
Qed.
Lemma softmax_prob : forall w s a, softmax (lgl w s a) = map (prob nA K w s a) (seq 0 K).
Proof.
  intros w s a. apply nth_ext with 0 0; [rewrite softmax_length, lgl_length, map_length, seq_length; auto|]. intros k Hk. rewrite softmax_length, lgl_length in Hk. rewrite nth_softmax by (now rewrite lgl_length). rewrite nth_seq_map by auto. unfold lgl. rewrite nth_seq_map by auto. unfold prob. f_equal. unfold sumexp. rewrite rsum_total, map_map. reflexivity.
Qed.
Lemma prob_soft : forall w s a k, prob nA K w s a k = soft K (logit nA K w s a) k. Proof. reflexivity. Qed.
Lemma prob_dist : forall w s a, is_dist K (prob nA K w s a).
Proof. intros w s a. split; [intros k Hk; rewrite prob_soft; left; apply soft_pos; lia|]. apply (@soft_one K ltac:(lia) (logit nA K w s a)). Qed.
Lemma value_eq : forall w s a, (s < nS)%nat -> (a < nA)%nat -> cd_value nS K lo hi w s (one_hot nA a) = Ok (mean_of nA K lo hi w s a).
Proof.
  intros w s a Hs Ha. unfold cd_value. rewrite logits_row by auto. unfold cat_mean. rewrite check_ok by apply lgl_length. cbn [bind]. unfold di_post. rewrite softmax_length, lgl_length, Nat.eqb_refl. f_equal.
  rewrite softmax_prob. unfold atoms. rewrite dot_seq by (now rewrite !map_length). rewrite map_length, seq_length. unfold mean_of, ev. apply total_ext. intros k Hk. apply in_seq in Hk. rewrite !nth_seq_map by lia. reflexivity.
Qed.
Lemma values_eq : forall w s, (s < nS)%nat -> cd_values nS nA K lo hi w s = Ok (map (mean_of nA K lo hi w s) (seq 0 nA)).
Proof. intros w s Hs. unfold cd_values. apply collect_all. intros a Ha. apply in_seq in Ha. apply value_eq; lia || auto. Qed.

(** * The targets *)
Variables (alg : calg) (gamma : R) (rows : list row) (b : fbatch nat).
Hypothesis HB : rows_in nS nA gamma rows.
Hypothesis HR : holds_rows nA alg rows b.
Definition tlog (wt : list R) (x : row) : list R := map (fun m => ln (Rmax m eps16)) (di_masses K lo hi (fun v => v) (fun v => v) (w_in x) (w_r x) (softmax (lgl wt (w_next x) (w_anext x)))).
Lemma tlog_length : forall wt x, length (tlog wt x) = K.
Proof. intros wt x. unfold tlog. rewrite map_length. assert (L : length (softmax (lgl wt (w_next x) (w_anext x))) = K) by (now rewrite softmax_length, lgl_length). exact (proj1 (@DistProofs3.masses_expect K lo hi (fun v => v) (fun v => v) (w_in x) (w_r x) _ HK Hlh L (fun _ => 0))). Qed.
Lemma E16 : / 10 ^ 16 = eps16. Proof. unfold eps16. f_equal. lra. Qed.
Lemma eps_pos : 0 < eps16. Proof. unfold eps16. apply Rinv_0_lt_compat. lra. Qed.
Lemma tlog_target : forall wt x k, (k < K)%nat -> nth k (softmax (tlog wt x)) 0 = row_target nA K lo hi wt x k.
Proof.
  intros wt x k Hk. rewrite nth_softmax by (now rewrite tlog_length). unfold row_target, floored. rewrite E16. pose proof eps_pos as EP. assert (L := tlog_length wt x). unfold tlog in L. rewrite map_length in L.
  assert (MP : forall v, 0 < Rmax v eps16) by (intros v; eapply Rlt_le_trans; [exact EP|apply Rmax_r]).
  assert (E : forall j, (j < K)%nat -> exp (nth j (tlog wt x) 0) = Rmax (proj K lo hi (w_r x) (w_in x) (prob nA K wt (w_next x) (w_anext x)) j) eps16).
  { intros j Hj. unfold tlog. rewrite (@nth_map0 (fun m => ln (Rmax m eps16)) _ j 0) by lia. rewrite exp_ln by apply MP. f_equal. rewrite (@proj_masses K lo hi HK Hlh) by auto. rewrite softmax_prob. reflexivity. }
  rewrite E by auto. f_equal. unfold sumexp. rewrite rsum_total. rewrite <- (map_nth_seq (tlog wt x) 0), tlog_length, map_map. apply total_ext. intros j Hj. apply in_seq in Hj. apply E. lia.
Qed.
Lemma target_rows : forall wt, cd_affine K lo hi (map w_in rows) (map w_r rows) (map (fun x => lgl wt (w_next x) (w_anext x)) rows) = Ok (map (tlog wt) rows).
Proof.
  intros wt. clear HB HR. induction rows as [|x l IH]; auto. cbn [map cd_affine]. unfold di_affine. rewrite lgl_length, Nat.eqb_refl. cbn [bind]. rewrite IH. cbn [bind]. reflexivity.
Qed.
Lemma next_eq : forall wt, uses_next nA K lo hi alg wt rows -> cd_next nS nA K lo hi alg wt (fb_t b) = Ok (map (fun x => one_hot nA (w_anext x)) rows).
Proof.
  intros wt U. destruct HR as (_ & _ & _ & _ & _ & R6 & R7). destruct alg; [cbn; now rewrite R7|]. cbn [cd_next]. rewrite R6. rewrite (@collect_all _ _ _ (fun s => map (mean_of nA K lo hi wt s) (seq 0 nA))).
  2:{ intros s Hs. apply in_map_iff in Hs. destruct Hs as (x & <- & Hx). apply values_eq. now apply HB. }
  cbn [bind]. unfold check_width. rewrite (proj2 (forallb_forall _ _)). 2:{ intros q Hq. apply in_map_iff in Hq. destruct Hq as (s & <- & _). rewrite map_length, seq_length. apply Nat.eqb_refl. }
  cbn [bind]. f_equal. rewrite !map_map. apply map_ext_in. intros x Hx. destruct (HB x Hx) as (_ & _ & A & B & _). apply greedy_unique; [now rewrite map_length, seq_length|]. split; auto. intros c Hc Nc. rewrite !nth_seq_map by auto. now apply U.
Qed.
Lemma logits_rows : forall w (f g : row -> nat), (forall x, In x rows -> (f x < nS)%nat /\ (g x < nA)%nat) -> cd_logits nS nA K w (map f rows) (map (fun x => one_hot nA (g x)) rows) = Ok (map (fun x => lgl w (f x) (g x)) rows).
Proof.
  intros w f g H. unfold cd_logits, p_net, function_type1. rewrite vmap2_ok by (now rewrite !map_length). rewrite map_map, combine_map_map, map_map. cbn [fst snd]. f_equal. apply map_ext_in. intros x Hx. destruct (H x Hx). now apply logits_row.
Qed.
Definition row_ce (w wt : list R) (x : row) : R := ln (sumx K (logit nA K w (w_s x) (w_a x))) - ev K (row_target nA K lo hi wt x) (logit nA K w (w_s x) (w_a x)).
Lemma target_one : forall wt x, total (map (row_target nA K lo hi wt x) (seq 0 K)) = 1.
Proof.
  intros wt x. rewrite (@total_ext _ _ (fun k => nth k (softmax (tlog wt x)) 0)) by (intros k Hk; apply in_seq in Hk; rewrite tlog_target by lia; reflexivity).
  rewrite <- (tlog_length wt x), <- (softmax_length (tlog wt x)), map_nth_seq. apply softmax_dist. apply (@nonempty K); [lia|apply tlog_length].
Qed.
Lemma target_pos : forall wt x k, (k < K)%nat -> 0 < row_target nA K lo hi wt x k.
Proof. intros wt x k Hk. rewrite <- tlog_target by auto. apply nth_pos; [|now rewrite softmax_length, tlog_length]. apply softmax_dist. apply (@nonempty K); [lia|apply tlog_length]. Qed.
Lemma ce_eq : forall w wt x, cat_cross_entropy K (tlog wt x) (lgl w (w_s x) (w_a x)) = Ok (row_ce w wt x).
Proof.
  intros w wt x. unfold cat_cross_entropy. rewrite check_ok by apply tlog_length. cbn [bind]. rewrite check_ok by apply lgl_length. cbn [bind]. f_equal.
  rewrite dot_seq by (now rewrite map_length, softmax_length, log_softmax_length, tlog_length, lgl_length). rewrite softmax_length, tlog_length. set (s := w_s x). set (a := w_a x).
  rewrite (@total_ext _ _ (fun k => ln (sumx K (logit nA K w s a)) * row_target nA K lo hi wt x k - row_target nA K lo hi wt x k * logit nA K w s a k)).
  - rewrite total_minus, total_scal, target_one, Rmult_1_r. reflexivity.
  - intros k Hk. apply in_seq in Hk. rewrite tlog_target by lia. rewrite (@nth_map0 Ropp _ k 0) by (rewrite log_softmax_length, lgl_length; lia). rewrite nth_log_softmax by (try (rewrite lgl_length; lia); apply (@nonempty K); lia || apply lgl_length). rewrite softmax_prob, nth_seq_map by lia. rewrite prob_soft, ln_soft by lia. ring.
Qed.
Let N := INR (length rows).
Hypothesis NE : rows <> [].
Definition mean_ce (wt w : list R) : R := total (map (row_ce w wt) rows) / N.
Lemma loss_eq : forall wt w, uses_next nA K lo hi alg wt rows -> cd_loss nS nA K lo hi alg wt b w = Ok (Some (mean_ce wt w)).
Proof.
  intros wt w U. destruct HR as (R1 & R2 & R3 & R4 & R5 & R6 & R7). unfold cd_loss, cd_target. rewrite R1, R2. rewrite logits_rows by (intros x Hx; destruct (HB x Hx) as (A & B & _); auto). cbn [bind]. rewrite next_eq by auto. cbn [bind]. rewrite R4, R5, R6.
  rewrite logits_rows by (intros x Hx; destruct (HB x Hx) as (_ & _ & A & B & _); auto). cbn [bind]. rewrite target_rows. cbn [bind]. rewrite vmap2_ok by (now rewrite !map_length). cbn [bind]. rewrite combine_map_map, map_map. cbn [fst snd].
  rewrite (map_ext_in _ (fun x => Ok (row_ce w wt x))) by (intros x _; apply ce_eq).
  assert (C : forall l, collect (fun c : outcome R => c) (map (fun x => Ok (row_ce w wt x)) l) = Ok (map (row_ce w wt) l)) by (induction l as [|x l IH]; auto; cbn [map collect bind]; now rewrite IH).
  rewrite C. cbn [bind]. rewrite R3, map_length, Nat.eqb_refl. unfold td_loss_discretized. rewrite jmean_some by (destruct rows; [congruence|discriminate]). rewrite map_length. reflexivity.
Qed.

(** * The gradient *)
Lemma lse_derivative : forall (x : nat -> R) k, (k < K)%nat -> derivable_pt_lim (fun t => ln (sumx K (fun j => if Nat.eqb j k then t else x j))) (x k) (soft K x k).
Proof.
  intros x k Hk. set (c := total (map (fun j => if Nat.eqb j k then 0 else exp (x j)) (seq 0 K))). assert (C0 : 0 <= c). { unfold c. apply Rle_trans with (total (map (fun _ : nat => 0) (seq 0 K))); [rewrite total_const; lra|]. apply total_le. intros j _. destruct (Nat.eqb j k); [lra|left; apply exp_pos]. }
  assert (S : forall t, sumx K (fun j => if Nat.eqb j k then t else x j) = c + exp t).
  { intros t. unfold sumx, c. assert (P := @total_pick (fun j => if Nat.eqb j k then exp t else 0) K k Hk). cbv beta in P. rewrite Nat.eqb_refl in P. rewrite <- P by (intros j Hj; destruct (Nat.eqb_spec j k); congruence). rewrite <- total_plus. apply total_ext. intros j _. destruct (Nat.eqb j k); lra. }
  apply (derivable_pt_lim_ext (fun t => ln (c + exp t))); [intros t; now rewrite S|]. assert (E : soft K x k = / (c + exp (x k)) * (0 + exp (x k))).
  { unfold soft. rewrite <- (S (x k)). unfold Rdiv. rewrite Rplus_0_l, Rmult_comm. f_equal. f_equal. unfold sumx. apply total_ext. intros j _. destruct (Nat.eqb_spec j k) as [->|]; auto. }
  rewrite E. apply (derivable_pt_lim_comp (fun t => c + exp t) ln).
  - apply (derivable_pt_lim_plus (fun _ => c) exp); [apply derivable_pt_lim_const|apply derivable_pt_lim_exp].
  - apply derivable_pt_lim_ln. pose proof (exp_pos (x k)). lra.
Qed.
Lemma ev_derivative : forall (t x : nat -> R) k, (k < K)%nat -> derivable_pt_lim (fun v => ev K t (fun j => if Nat.eqb j k then v else x j)) (x k) (t k).
Proof.
  intros t x k Hk. set (c := total (map (fun j => if Nat.eqb j k then 0 else t j * x j) (seq 0 K))).
  assert (S : forall v, ev K t (fun j => if Nat.eqb j k then v else x j) = c + t k * v).
  { intros v. unfold ev, c. assert (P := @total_pick (fun j => if Nat.eqb j k then t k * v else 0) K k Hk). cbv beta in P. rewrite Nat.eqb_refl in P. rewrite <- P by (intros j Hj; destruct (Nat.eqb_spec j k); congruence). rewrite <- total_plus. apply total_ext. intros j _. destruct (Nat.eqb_spec j k) as [->|]; lra. }
  apply (derivable_pt_lim_ext (fun v => c + t k * v)); [intros v; now rewrite S|]. replace (t k) with (0 + t k * 1) at 1 by ring. apply (derivable_pt_lim_plus (fun _ => c) (fun v => t k * v)); [apply derivable_pt_lim_const|]. apply (derivable_pt_lim_scal (fun v => v)). apply derivable_pt_lim_id.
Qed.
Lemma cell_lt : forall s a k, (s < nS)%nat -> (a < nA)%nat -> (k < K)%nat -> ((s * nA + a) * K + k < nS * nA * K)%nat.
Proof. intros s a k Hs Ha Hk. assert (X := index_lt Hs Ha). now apply index_lt. Qed.
Lemma logit_repl : forall w s a k t s' a' j, length w = (nS * nA * K)%nat -> (s < nS)%nat -> (a < nA)%nat -> (k < K)%nat -> (s' < nS)%nat -> (a' < nA)%nat -> (j < K)%nat ->
  logit nA K (repl ((s * nA + a) * K + k) t w) s' a' j = if Nat.eqb s' s && Nat.eqb a' a && Nat.eqb j k then t else logit nA K w s' a' j.
Proof.
  intros w s a k t s' a' j L Hs Ha Hk Hs' Ha' Hj. unfold logit. rewrite nth_repl by (rewrite L; now apply cell_lt). destruct (Nat.eqb_spec ((s' * nA + a') * K + j) ((s * nA + a) * K + k)) as [E|E].
  - apply index_inj in E; auto. destruct E as [E ->]. apply index_inj in E; auto. destruct E as [-> ->]. now rewrite !Nat.eqb_refl.
  - destruct (Nat.eqb_spec s' s) as [->|]; auto. destruct (Nat.eqb_spec a' a) as [->|]; auto. destruct (Nat.eqb_spec j k) as [->|]; auto. congruence.
Qed.
Lemma sumx_ext : forall x y, (forall j, (j < K)%nat -> x j = y j) -> sumx K x = sumx K y.
Proof. intros x y E. apply total_ext. intros j Hj. apply in_seq in Hj. rewrite E by lia. auto. Qed.
Lemma row_derivative : forall w wt x s a k, length w = (nS * nA * K)%nat -> In x rows -> (s < nS)%nat -> (a < nA)%nat -> (k < K)%nat ->
  derivable_pt_lim (fun t => row_ce (repl ((s * nA + a) * K + k) t w) wt x) (logit nA K w s a k) (if at_pair s a x then prob nA K w s a k - row_target nA K lo hi wt x k else 0).
Proof.
  intros w wt x s a k L Hx Hs Ha Hk. destruct (HB x Hx) as (A & B & _). unfold at_pair. destruct (Nat.eqb (w_s x) s && Nat.eqb (w_a x) a) eqn:E.
  - apply andb_prop in E. destruct E as [E1 E2]. apply Nat.eqb_eq in E1, E2. subst s a.
    apply (derivable_pt_lim_ext (fun t => ln (sumx K (fun j => if Nat.eqb j k then t else logit nA K w (w_s x) (w_a x) j)) - ev K (row_target nA K lo hi wt x) (fun j => if Nat.eqb j k then t else logit nA K w (w_s x) (w_a x) j))).
    { intros t. unfold row_ce. assert (X : forall j, (j < K)%nat -> (if Nat.eqb j k then t else logit nA K w (w_s x) (w_a x) j) = logit nA K (repl ((w_s x * nA + w_a x) * K + k) t w) (w_s x) (w_a x) j) by (intros j Hj; rewrite logit_repl by auto; now rewrite !Nat.eqb_refl).
      rewrite (@sumx_ext _ _ X). f_equal. unfold ev. apply total_ext. intros j Hj. apply in_seq in Hj. rewrite X by lia. auto. }
    apply (derivable_pt_lim_minus (fun t => ln (sumx K (fun j => if Nat.eqb j k then t else logit nA K w (w_s x) (w_a x) j)))); [apply lse_derivative; auto|apply ev_derivative; auto].
  - apply (derivable_pt_lim_ext (fun t => row_ce w wt x)); [|apply derivable_pt_lim_const]. intros t. unfold row_ce. assert (X : forall j, (j < K)%nat -> logit nA K w (w_s x) (w_a x) j = logit nA K (repl ((s * nA + a) * K + k) t w) (w_s x) (w_a x) j) by (intros j Hj; rewrite logit_repl by auto; now rewrite E).
    rewrite (@sumx_ext _ _ X). f_equal. unfold ev. apply total_ext. intros j Hj. apply in_seq in Hj. rewrite X by lia. auto.
Qed.
Lemma grad_cell : forall w wt g s a k, length w = (nS * nA * K)%nat -> gradient (mean_ce wt) w g -> (s < nS)%nat -> (a < nA)%nat -> (k < K)%nat ->
  nth ((s * nA + a) * K + k) g 0 = / N * pair_sum s a (fun x => prob nA K w s a k - row_target nA K lo hi wt x k) rows.
Proof.
  intros w wt g s a k L [LG G] Hs Ha Hk. specialize (G ((s * nA + a) * K + k)%nat ltac:(rewrite L; now apply cell_lt)). eapply uniqueness_limite; [exact G|].
  apply (derivable_pt_lim_ext (fun t => / N * total (map (row_ce (repl ((s * nA + a) * K + k) t w) wt) rows))); [intros t; unfold mean_ce, Rdiv; rewrite Rmult_comm; reflexivity|]. apply derivable_pt_lim_scal.
  assert (D : forall l, incl l rows -> derivable_pt_lim (fun t => total (map (row_ce (repl ((s * nA + a) * K + k) t w) wt) l)) (nth ((s * nA + a) * K + k) w 0) (pair_sum s a (fun x => prob nA K w s a k - row_target nA K lo hi wt x k) l)).
  { induction l as [|x l IH]; intros I; [cbn; apply derivable_pt_lim_const|]. unfold pair_sum. cbn [map]. rewrite total_cons. apply (derivable_pt_lim_ext (fun t => row_ce (repl ((s * nA + a) * K + k) t w) wt x + total (map (row_ce (repl ((s * nA + a) * K + k) t w) wt) l))); [intros; now rewrite total_cons|].
    apply derivable_pt_lim_plus; [|apply IH; intros y Hy; apply I; now right]. apply row_derivative; auto. apply I. now left. }
  apply D. apply incl_refl.
Qed.
(** There is such a gradient. *)
Definition the_grad (wt w : list R) : list R := map (fun i => / N * pair_sum (i / K / nA) ((i / K) mod nA) (fun x => prob nA K w (i / K / nA) ((i / K) mod nA) (i mod K) - row_target nA K lo hi wt x (i mod K)) rows) (seq 0 (nS * nA * K)).
Lemma grad_exists : forall w wt, length w = (nS * nA * K)%nat -> gradient (mean_ce wt) w (the_grad wt w).
Proof.
  intros w wt L. split; [unfold the_grad; now rewrite map_length, seq_length, L|]. intros i Hi. rewrite L in Hi. unfold the_grad. rewrite nth_seq_map by auto. assert (HA : (1 <= nA)%nat) by (destruct nA; [|lia]; rewrite Nat.mul_0_r in Hi; cbn in Hi; lia).
  set (k := (i mod K)%nat). set (sa := (i / K)%nat). set (s := (sa / nA)%nat). set (a := (sa mod nA)%nat). assert (Hk : (k < K)%nat) by (apply Nat.mod_upper_bound; lia). assert (Ha : (a < nA)%nat) by (apply Nat.mod_upper_bound; lia).
  assert (Hsa : (sa < nS * nA)%nat) by (apply Nat.div_lt_upper_bound; nia). assert (Hs : (s < nS)%nat) by (apply Nat.div_lt_upper_bound; nia). assert (E1 : sa = (s * nA + a)%nat) by (unfold s, a; pose proof (Nat.div_mod sa nA ltac:(lia)); nia). assert (E2 : i = ((s * nA + a) * K + k)%nat) by (rewrite <- E1; unfold sa, k; pose proof (Nat.div_mod i K ltac:(lia)); nia).
  rewrite E2. change (firstn ?i w ++ ?t :: skipn (S ?i) w) with (repl i t w).
  apply (derivable_pt_lim_ext (fun t => / N * total (map (row_ce (repl ((s * nA + a) * K + k) t w) wt) rows))); [intros t; unfold mean_ce, Rdiv; rewrite Rmult_comm; reflexivity|]. apply derivable_pt_lim_scal.
  assert (D : forall l, incl l rows -> derivable_pt_lim (fun t => total (map (row_ce (repl ((s * nA + a) * K + k) t w) wt) l)) (nth ((s * nA + a) * K + k) w 0) (pair_sum s a (fun x => prob nA K w s a k - row_target nA K lo hi wt x k) l)).
  { induction l as [|x l IH]; intros I; [cbn; apply derivable_pt_lim_const|]. unfold pair_sum. cbn [map]. rewrite total_cons. apply (derivable_pt_lim_ext (fun t => row_ce (repl ((s * nA + a) * K + k) t w) wt x + total (map (row_ce (repl ((s * nA + a) * K + k) t w) wt) l))); [intros; now rewrite total_cons|].
    apply derivable_pt_lim_plus; [|apply IH; intros y Hy; apply I; now right]. apply row_derivative; auto. apply I. now left. }
  apply D. apply incl_refl.
Qed.
Lemma grads_exist : ce_grads nS nA K lo hi alg (fun wt _ w => the_grad wt w) rows b.
Proof. intros targ w L1 L2 U. eapply gradient_ext; [|exact (@grad_exists w targ L2)]. intros h _. cbv beta. rewrite loss_eq by auto. reflexivity. Qed.
End Net.

(** * Steps *)
Lemma gm_update_keeps : forall (loss : list R -> outcome (option R)) g lr l th v, l_opt l = sgd lr -> f_params (l_func l) = wrap th -> loss th = Ok v -> length (g th) = length th ->
  exists l', update (gm loss g) l = (l', Ok tt) /\ l_opt l' = sgd lr /\ f_cls (l_func l') = f_cls (l_func l) /\ f_state (l_func l') = f_state (l_func l) /\ f_params (l_func l') = wrap (map (fun i => nth i th 0 - lr * nth i (g th) 0) (seq 0 (length th))).
Proof.
  intros loss g lr l th v HO Q V L.
  destruct (@update_ok unit (gm loss g) l (wrap (map (@Some R) (g th))) (f_state (l_func l)) tt
    (wrap (map (fun o => match o with Some v => - lr * v | None => 0 end) (map (@Some R) (g th)))) (l_ostate l)) as (p & l' & E & EP & F); auto.
  - unfold gm. rewrite Q, unwrap_wrap, V. reflexivity.
  - apply wrap_no_nan.
  - rewrite HO. reflexivity.
  - rewrite Q. unfold wrap. cbn. now rewrite !map_length, L.
  - rewrite E. exists l'. split; [reflexivity|]. red in F. subst l'. cbn. repeat (split; auto).
    rewrite Q in EP. apply wrap_entrywise in EP; [|now rewrite !map_length]. rewrite EP. f_equal. apply map_ext_in. intros i Hi. apply in_seq in Hi. rewrite map_map. rewrite (@nth_map_any _ _ _ (g th) i 0 0) by lia. lra.
Qed.
Section Steps.
Variables nS nA K : nat.
Variables lo hi gamma lr : R.
Hypotheses (HK : (2 <= K)%nat) (Hlh : lo < hi).
Variables (rows : list row) (b : fbatch nat) (alg : calg) (g : list R -> fbatch nat -> list R -> list R) (sub : nat -> nat -> bool).
Hypotheses (HB : rows_in nS nA gamma rows) (HR : holds_rows nA alg rows b) (NE : rows <> []) (HG : ce_grads nS nA K lo hi alg g rows b).
Notation step := (cstep nS nA K lo hi alg g sub).
Notation nets := (nets nS nA K lr sub).
Lemma step_update : forall y w wt, nets y w wt -> uses_next nA K lo hi alg wt rows -> exists y' w' wt', step y (CU b) = (y', Ok tt) /\ nets y' w' wt' /\ (c_targ y <> None -> wt' = wt) /\ c_targ y' = c_targ y /\
  forall s a k, (s < nS)%nat -> (a < nA)%nat -> (k < K)%nat -> logit nA K w' s a k = logit nA K w s a k + lr / INR (length rows) * pair_sum s a (fun x => row_target nA K lo hi wt x k - prob nA K w s a k) rows.
Proof.
  intros y w wt (N1 & N2 & N3 & N4 & N5) U. assert (T : unwrap (match c_targ y with Some f => f_params f | None => f_params (l_func (c_q y)) end) = Some wt). { destruct (c_targ y) as [f|]; [destruct N5 as (-> & _); apply unwrap_wrap|]. rewrite N2, N5. apply unwrap_wrap. }
  pose proof (HG wt w N4 N3 U) as G0. assert (G : gradient (mean_ce nA K lo hi rows wt) w (g wt b w)). { eapply gradient_ext; [|exact G0]. intros h _. cbv beta. rewrite (@loss_eq nS nA K lo hi HK Hlh alg gamma rows b HB HR NE wt h U). reflexivity. }
  assert (LG : length (g wt b w) = length w) by apply G.
  destruct (@gm_update_keeps (cd_loss nS nA K lo hi alg wt b) (g wt b) lr (c_q y) w _ N1 N2 (@loss_eq nS nA K lo hi HK Hlh alg gamma rows b HB HR NE wt w U) LG) as (l' & E & O & C & S & P).
  set (w' := map (fun i => nth i w 0 - lr * nth i (g wt b w) 0) (seq 0 (length w))) in *. assert (LW : length w' = (nS * nA * K)%nat) by (unfold w'; now rewrite map_length, seq_length).
  exists (mkC l' (c_targ y)), w', (match c_targ y with Some _ => wt | None => w' end). cbn [cstep]. rewrite T, E. split; [reflexivity|]. split; [|split; [|split; [reflexivity|]]].
  - split; [exact O|]. split; [exact P|]. split; [exact LW|]. split; [destruct (c_targ y); auto|]. cbn [c_targ c_q]. destruct (c_targ y) as [f|]; auto. rewrite C, S. exact N5.
  - destruct (c_targ y); congruence.
  - intros s a k Hs Ha Hk. unfold logit at 1. unfold w'. rewrite nth_seq_map by (rewrite N3; now apply cell_lt). rewrite (@grad_cell nS nA K lo hi HK gamma rows HB w wt (g wt b w) s a k N3 G Hs Ha Hk).
    rewrite (@pair_sum_ext rows s a (fun x => prob nA K w s a k - row_target nA K lo hi wt x k) (fun x => - 1 * (row_target nA K lo hi wt x k - prob nA K w s a k))) by (intros; ring). rewrite pair_sum_scal. unfold logit at 1. unfold Rdiv. ring.
Qed.
Lemma step_sync : forall y w wt, nets y w wt -> c_targ y <> None -> exists y', step y (CSync 1) = (y', Ok tt) /\ nets y' w w /\ c_targ y' <> None.
Proof.
  intros y w wt (N1 & N2 & N3 & N4 & N5) H. destruct (c_targ y) as [f|] eqn:Ef; [|congruence]. destruct N5 as (P & C & S). destruct (@soft_update_ok sub f (l_func (c_q y)) 1) as (p & st & E & EP & ES); auto.
  - rewrite P, N2. cbn. now rewrite N3, N4.
  - exists (mkC (c_q y) (Some (mkFunc (f_cls f) p st (f_key f)))). cbn [cstep]. rewrite Ef, E. split; [reflexivity|]. split; [|discriminate]. split; [exact N1|]. split; [exact N2|]. split; [exact N3|]. split; [exact N3|]. cbn.
    split; [|split; [exact C|destruct ES as [-> _]; exact S]]. change (Node [0%nat] [Node [0%nat] [Leaf wt]]) with (wrap wt) in P. change (Node [0%nat] [Node [0%nat] [Leaf w]]) with (wrap w) in N2. rewrite P, N2 in EP. apply wrap_entrywise in EP; [|congruence]. rewrite EP. unfold wrap. do 4 f_equal.
    rewrite (map_ext _ (fun i => nth i w 0)) by (intros; ring). rewrite N4, <- N3. f_equal. apply map_nth_seq.
Qed.
End Steps.
