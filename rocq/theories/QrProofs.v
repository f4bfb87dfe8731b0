(** Exact updates of tables of quantiles. *)
From Coq Require Import List Lia Bool Arith Reals Lra.
From Verif Require Import PyCommon CommonProofs UtilsModel UtilsSpec UtilsProofs2 UtilsProofs3 DistModel DistSpec DistProofs DistProofs2 LossModel LossSpec LossProofs QModel QProofs TDModel TDSpec TDProofs TDProofs3 CoreModel CoreSpec CoreProofs CoreProofs2 StochModel LearnModel LearnProofs LearnProofs2 LearnProofs3 MbModel MbProofs CatModel CatSpec CatProofs3 QrModel QrSpec.
Import ListNotations.
Set Implicit Arguments.
Local Open Scope R_scope.

Lemma total_nth : forall (A : Type) (f : A -> R) (d : A) l, total (map f l) = total (map (fun i => f (nth i l d)) (seq 0 (length l))).
Proof. intros A f d l. induction l as [|x l IH]; auto. cbn [length seq map nth]. rewrite !total_cons, IH. f_equal. now rewrite <- seq_shift, map_map. Qed.
Lemma clip_pull : forall u, clip u (-1) 1 = Rmax (-1) (Rmin u 1).
Proof. intros u. unfold clip, Rmax, Rmin; repeat destruct (Rle_dec _ _); lra. Qed.
Lemma pull_deriv : forall tau y h, 0 <= tau <= 1 -> derivable_pt_lim (fun h => quantile_formula 1 tau (y - h)) h (- pull tau (y - h)).
Proof. intros tau y h H. replace (- pull tau (y - h)) with (- (quantile_weight tau (y - h) * clip (y - h) (-(1)) 1 / 1)); [apply qf_deriv_pred; lra|]. unfold pull, quantile_weight. replace (-(1)) with (-1) by lra. rewrite clip_pull. field. Qed.

Section Net.
Variables nS nA K : nat.
Hypothesis HK : (1 <= K)%nat.
Lemma mean_eq : forall w s a, (s < nS)%nat -> (a < nA)%nat -> qd_mean nS K w s (one_hot nA a) = val_mean nA K w s a.
Proof. intros w s a Hs Ha. unfold qd_mean. rewrite logits_row by auto. unfold eq_mean, lgl. rewrite rsum_total, map_length, seq_length. reflexivity. Qed.
Variables (alg : calg) (gamma t0 : R) (rows : list qrow) (b : fbatch nat) (taus : list (list R)).
Hypothesis Ht : 0 <= t0.
Hypothesis HB : qrows_in nS nA K gamma t0 rows.
Hypothesis HR : holds_qrows nA alg rows b taus.
Lemma row_bounds : forall x, In x rows -> (w_s (q_row x) < nS)%nat /\ (w_a (q_row x) < nA)%nat /\ (w_next (q_row x) < nS)%nat /\ (w_anext (q_row x) < nA)%nat /\ 0 <= w_in (q_row x) <= gamma.
Proof. intros x Hx. apply HB. now apply in_map. Qed.
Lemma row_taus : forall x, In x rows -> length (q_taus x) = K. Proof. intros x Hx. now apply HB. Qed.
Lemma row_tau : forall x k, In x rows -> (k < K)%nat -> t0 <= nth k (q_taus x) 0 <= 1 - t0.
Proof. intros x k Hx Hk. destruct HB as [_ H]. destruct (H x Hx) as [L B]. apply B. apply nth_In. now rewrite L. Qed.
Lemma qnext_eq : forall wt, quses_next nA K alg wt rows -> qd_next nS nA K alg wt (fb_t b) = Ok (map (fun x => one_hot nA (w_anext (q_row x))) rows).
Proof.
  intros wt U. destruct HR as (_ & _ & _ & _ & _ & _ & R7 & R8). destruct alg; [cbn; now rewrite R8|]. cbn [qd_next]. rewrite R7. unfold check_width. rewrite (proj2 (forallb_forall _ _)). 2:{ intros q Hq. apply in_map_iff in Hq. destruct Hq as (s & <- & _). rewrite map_length, seq_length. apply Nat.eqb_refl. }
  cbn [bind]. f_equal. rewrite !map_map. apply map_ext_in. intros x Hx. destruct (row_bounds x Hx) as (_ & _ & A & B & _). apply greedy_unique; [now rewrite map_length, seq_length|]. split; auto. intros c Hc Nc. rewrite !nth_seq_map by auto. rewrite !mean_eq by auto. now apply U.
Qed.
Lemma qvalues_rows : forall w (f g : qrow -> nat), (forall x, In x rows -> (f x < nS)%nat /\ (g x < nA)%nat) -> qd_values nS nA K w (map f rows) (map (fun x => one_hot nA (g x)) rows) = Ok (map (fun x => lgl nA K w (f x) (g x)) rows).
Proof.
  intros w f g H. unfold qd_values, p_net, function_type1. rewrite vmap2_ok by (now rewrite !map_length). rewrite map_map, combine_map_map, map_map. cbn [fst snd]. f_equal. apply map_ext_in. intros x Hx. destruct (H x Hx). now apply logits_row.
Qed.
(** The targets of a row. *)
Definition tg (wt : list R) (x : qrow) (j : nat) : R := w_r (q_row x) + w_in (q_row x) * val nA K wt (w_next (q_row x)) (w_anext (q_row x)) j.
Lemma qtarget_rows : forall wt, qd_affine K (map (fun x => w_in (q_row x)) rows) (map (fun x => w_r (q_row x)) rows) (map (fun x => lgl nA K wt (w_next (q_row x)) (w_anext (q_row x))) rows) = Ok (map (fun x => map (tg wt x) (seq 0 K)) rows).
Proof.
  intros wt. clear HB HR. induction rows as [|x l IH]; auto. cbn [map qd_affine]. rewrite lgl_length, Nat.eqb_refl, IH. cbn [bind]. unfold eq_affine, lgl. rewrite map_map. reflexivity.
Qed.
Definition row_qh (w wt : list R) (x : qrow) : R :=
  cwt x * (total (map (fun k => total (map (fun j => quantile_formula 1 (nth k (q_taus x) 0) (tg wt x j - val nA K w (w_s (q_row x)) (w_a (q_row x)) k)) (seq 0 K))) (seq 0 K)) / INR K).
Let N := INR (length rows).
Hypothesis NE : rows <> [].
Definition mean_qh (wt w : list R) : R := total (map (row_qh w wt) rows) / N.
Lemma qloss_eq : forall wt w, quses_next nA K alg wt rows -> qd_loss nS nA K alg wt taus b w = Ok (Some (mean_qh wt w)).
Proof.
  intros wt w U. pose proof (qnext_eq wt U) as QN. destruct HR as (R1 & R2 & R3 & R4 & R5 & R6 & R7 & R8). unfold qd_loss, qd_target. rewrite R1, R2. rewrite (@qvalues_rows w (fun x => w_s (q_row x)) (fun x => w_a (q_row x))) by (intros x Hx; destruct (row_bounds x Hx) as (A & B & _); auto). cbn [bind]. rewrite QN. cbn [bind].
  rewrite R5, R6, R7. rewrite (@qvalues_rows wt (fun x => w_next (q_row x)) (fun x => w_anext (q_row x))) by (intros x Hx; destruct (row_bounds x Hx) as (_ & _ & A & B & _); auto). cbn [bind]. rewrite qtarget_rows. cbn [bind]. rewrite R3, R4. unfold td_loss_quantile.
  set (d := mk_q (mk_r 0 0 0 0 0 0) 0 []).
  assert (NR : forall i, (i < length rows)%nat -> In (nth i rows d) rows) by (intros; now apply nth_In).
  rewrite (@quantile_batch 1 _ _ _ _ K); try (unfold clip_w; rewrite ?map_length; auto; lra).
  2:{ destruct rows; [congruence|discriminate]. }
  2:{ intros i Hi. rewrite map_length in Hi. rewrite (@nth_map_any _ _ _ rows i [] d), (@nth_map_any _ _ q_taus rows i [] d) by auto. rewrite lgl_length. split; auto. split; [now apply row_taus, NR|]. intros t T. destruct HB as [_ HB']. destruct (HB' _ (NR i Hi)) as [_ X]. specialize (X t T). lra. }
  f_equal. f_equal. unfold weighted_mean, mean_qh. rewrite map_length. unfold N. f_equal. rewrite (@total_nth _ (row_qh w wt) d). apply total_ext. intros i Hi. apply in_seq in Hi. unfold row_qh. assert (Hi' : (i < length rows)%nat) by lia.
  rewrite (@nth_map_any _ _ _ rows i [] d), (@nth_map_any _ _ _ rows i [] d), (@nth_map_any _ _ q_taus rows i [] d) by auto. rewrite (@clip_w_nth (map q_w rows)) by (now rewrite map_length). rewrite (@nth_map_any _ _ q_w rows i 0 d) by auto. f_equal.
  - unfold cwt, clip, Rmax, Rmin; repeat destruct (Rle_dec _ _); lra.
  - unfold mean. rewrite map_length, seq_length. f_equal. apply total_ext. intros k Hk. apply in_seq in Hk. unfold quantile_row. rewrite map_length, seq_length. apply total_ext. intros j Hj. apply in_seq in Hj. rewrite nth_seq_map by lia. unfold lgl. rewrite nth_seq_map by lia. reflexivity.
Qed.
Lemma row_qderivative : forall w wt x s a k, length w = (nS * nA * K)%nat -> t0 <= 1 - t0 -> In x rows -> (s < nS)%nat -> (a < nA)%nat -> (k < K)%nat ->
  derivable_pt_lim (fun t => row_qh (repl ((s * nA + a) * K + k) t w) wt x) (val nA K w s a k) (if at_pair s a (q_row x) then - (cwt x * (row_pull nA K wt x k (val nA K w s a k) / INR K)) else 0).
Proof.
  intros w wt x s a k L T1 Hx Hs Ha Hk. destruct (row_bounds x Hx) as (A & B & _). unfold at_pair. destruct (Nat.eqb (w_s (q_row x)) s && Nat.eqb (w_a (q_row x)) a) eqn:E.
  - apply andb_prop in E. destruct E as [E1 E2]. apply Nat.eqb_eq in E1, E2. subst s a. set (s := w_s (q_row x)) in *. set (a := w_a (q_row x)) in *. set (v := val nA K w s a).
    set (F := fun (k' : nat) (t : R) => total (map (fun j => quantile_formula 1 (nth k' (q_taus x) 0) (tg wt x j - (if Nat.eqb k' k then t else v k'))) (seq 0 K))).
    apply (derivable_pt_lim_ext (fun t => cwt x * / INR K * total (map (fun k' => F k' t) (seq 0 K)))).
    { intros t. unfold row_qh, Rdiv. fold s a. rewrite Rmult_assoc. f_equal. rewrite Rmult_comm. f_equal. apply total_ext. intros k' Hk'. apply in_seq in Hk'. unfold F. apply total_ext. intros j _. f_equal. f_equal. change (val nA K (repl ((s * nA + a) * K + k) t w) s a k') with (logit nA K (repl ((s * nA + a) * K + k) t w) s a k'). rewrite (@logit_repl nS) by (auto; lia). rewrite !Nat.eqb_refl. reflexivity. }
    assert (G : total (map (fun k' => if Nat.eqb k' k then - row_pull nA K wt x k (v k) else 0) (seq 0 K)) = - row_pull nA K wt x k (v k)) by (rewrite (@total_pick (fun k' => if Nat.eqb k' k then - row_pull nA K wt x k (v k) else 0) K k Hk); [now rewrite Nat.eqb_refl|intros k' N'; destruct (Nat.eqb_spec k' k); congruence]).
    replace (- (cwt x * (row_pull nA K wt x k (v k) / INR K))) with (cwt x * / INR K * total (map (fun k' => if Nat.eqb k' k then - row_pull nA K wt x k (v k) else 0) (seq 0 K))) by (rewrite G; unfold Rdiv; ring).
    apply derivable_pt_lim_scal. apply (@deriv_total nat F (fun k' _ => if Nat.eqb k' k then - row_pull nA K wt x k (v k) else 0)). intros k' Hk'. apply in_seq in Hk'. unfold F. destruct (Nat.eqb_spec k' k) as [->|NK].
    + unfold row_pull. replace (- total (map (fun j => pull (nth k (q_taus x) 0) (w_r (q_row x) + w_in (q_row x) * val nA K wt (w_next (q_row x)) (w_anext (q_row x)) j - v k)) (seq 0 K))) with (total (map (fun j => - pull (nth k (q_taus x) 0) (tg wt x j - v k)) (seq 0 K))) by (rewrite (@total_ext _ _ (fun j => -1 * pull (nth k (q_taus x) 0) (tg wt x j - v k))) by (intros; ring); rewrite total_scal; unfold tg; ring).
      apply (@deriv_total nat (fun j t => quantile_formula 1 (nth k (q_taus x) 0) (tg wt x j - t)) (fun j t => - pull (nth k (q_taus x) 0) (tg wt x j - t))). intros j _. apply pull_deriv. pose proof (@row_tau x k Hx Hk). lra.
    + apply derivable_pt_lim_const.
  - apply (derivable_pt_lim_ext (fun t => row_qh w wt x)); [|apply derivable_pt_lim_const]. intros t. unfold row_qh. f_equal. f_equal. apply total_ext. intros k' Hk'. apply in_seq in Hk'. apply total_ext. intros j _. f_equal. f_equal.
    change (val nA K (repl ((s * nA + a) * K + k) t w)) with (logit nA K (repl ((s * nA + a) * K + k) t w)). rewrite (@logit_repl nS) by (auto; lia). rewrite E. reflexivity.
Qed.
Lemma sum_qderivative : forall w wt s a k, length w = (nS * nA * K)%nat -> t0 <= 1 - t0 -> (s < nS)%nat -> (a < nA)%nat -> (k < K)%nat ->
  derivable_pt_lim (fun t => mean_qh wt (repl ((s * nA + a) * K + k) t w)) (val nA K w s a k) (- (/ (N * INR K) * qpair_sum s a (fun x => cwt x * row_pull nA K wt x k (val nA K w s a k)) rows)).
Proof.
  intros w wt s a k L T1 Hs Ha Hk. assert (KP : 0 < INR K) by (apply lt_0_INR; lia). assert (NP : 0 < N) by (apply lt_0_INR; destruct rows; [congruence|cbn; lia]).
  apply (derivable_pt_lim_ext (fun t => / N * total (map (row_qh (repl ((s * nA + a) * K + k) t w) wt) rows))); [intros t; unfold mean_qh, Rdiv; rewrite Rmult_comm; reflexivity|].
  replace (- (/ (N * INR K) * qpair_sum s a (fun x => cwt x * row_pull nA K wt x k (val nA K w s a k)) rows)) with (/ N * total (map (fun x => if at_pair s a (q_row x) then - (cwt x * (row_pull nA K wt x k (val nA K w s a k) / INR K)) else 0) rows)).
  - apply derivable_pt_lim_scal. apply (@deriv_total qrow (fun x t => row_qh (repl ((s * nA + a) * K + k) t w) wt x) (fun x _ => if at_pair s a (q_row x) then - (cwt x * (row_pull nA K wt x k (val nA K w s a k) / INR K)) else 0)). intros x Hx. now apply row_qderivative.
  - unfold qpair_sum. rewrite (@total_ext _ _ (fun x => - / INR K * (if at_pair s a (q_row x) then cwt x * row_pull nA K wt x k (val nA K w s a k) else 0))) by (intros x _; destruct (at_pair s a (q_row x)); unfold Rdiv; ring). rewrite total_scal. field. lra.
Qed.
Lemma qgrad_cell : forall w wt g s a k, length w = (nS * nA * K)%nat -> t0 <= 1 - t0 -> gradient (mean_qh wt) w g -> (s < nS)%nat -> (a < nA)%nat -> (k < K)%nat ->
  nth ((s * nA + a) * K + k) g 0 = - (/ (N * INR K) * qpair_sum s a (fun x => cwt x * row_pull nA K wt x k (val nA K w s a k)) rows).
Proof.
  intros w wt g s a k L T1 [LG G] Hs Ha Hk. specialize (G ((s * nA + a) * K + k)%nat ltac:(rewrite L; now apply cell_lt)). eapply uniqueness_limite; [exact G|]. now apply sum_qderivative.
Qed.
(** There is such a gradient. *)
Definition the_qgrad (wt w : list R) : list R := map (fun i => - (/ (N * INR K) * qpair_sum (i / K / nA) ((i / K) mod nA) (fun x => cwt x * row_pull nA K wt x (i mod K) (val nA K w (i / K / nA) ((i / K) mod nA) (i mod K))) rows)) (seq 0 (nS * nA * K)).
Lemma qgrads_exist : t0 <= 1 - t0 -> qh_grads nS nA K alg (fun wt _ _ w => the_qgrad wt w) rows b taus.
Proof.
  intros T1 wt w _ L U. eapply gradient_ext; [intros h _; cbv beta; rewrite (qloss_eq wt h U); reflexivity|]. cbn [loss_value].
  split; [unfold the_qgrad; now rewrite map_length, seq_length, L|]. intros i Hi. rewrite L in Hi. unfold the_qgrad. rewrite nth_seq_map by auto. assert (HA : (1 <= nA)%nat) by (destruct nA; [|lia]; rewrite Nat.mul_0_r in Hi; cbn in Hi; lia).
  set (k := (i mod K)%nat). set (sa := (i / K)%nat). set (s := (sa / nA)%nat). set (a := (sa mod nA)%nat). assert (Hk : (k < K)%nat) by (apply Nat.mod_upper_bound; lia). assert (Ha : (a < nA)%nat) by (apply Nat.mod_upper_bound; lia).
  assert (Hsa : (sa < nS * nA)%nat) by (apply Nat.div_lt_upper_bound; nia). assert (Hs : (s < nS)%nat) by (apply Nat.div_lt_upper_bound; nia). assert (E1 : sa = (s * nA + a)%nat) by (unfold s, a; pose proof (Nat.div_mod sa nA ltac:(lia)); nia). assert (E2 : i = ((s * nA + a) * K + k)%nat) by (rewrite <- E1; unfold sa, k; pose proof (Nat.div_mod i K ltac:(lia)); nia).
  rewrite E2. change (firstn ?i w ++ ?t :: skipn (S ?i) w) with (repl i t w). exact (@sum_qderivative w wt s a k L T1 Hs Ha Hk).
Qed.

(** * Steps *)
Variables (lr : R) (g : list R -> list (list R) -> fbatch nat -> list R -> list R) (sub : nat -> nat -> bool).
Hypothesis HG : qh_grads nS nA K alg g rows b taus.
Hypothesis T1 : t0 <= 1 - t0.
Lemma qstep_update : forall y w wt, nets nS nA K lr sub y w wt -> quses_next nA K alg wt rows -> exists y' w' wt', qstep nS nA K alg g sub y (QU b taus) = (y', Ok tt) /\ nets nS nA K lr sub y' w' wt' /\ (c_targ y <> None -> wt' = wt) /\ c_targ y' = c_targ y /\
  forall s a k, (s < nS)%nat -> (a < nA)%nat -> (k < K)%nat -> val nA K w' s a k = val nA K w s a k + lr / (N * INR K) * qpair_sum s a (fun x => cwt x * row_pull nA K wt x k (val nA K w s a k)) rows.
Proof.
  intros y w wt (N1 & N2 & N3 & N4 & N5) U. assert (T : unwrap (match c_targ y with Some f => f_params f | None => f_params (l_func (c_q y)) end) = Some wt). { destruct (c_targ y) as [f|]; [destruct N5 as (-> & _); apply unwrap_wrap|]. rewrite N2, N5. apply unwrap_wrap. }
  pose proof (HG wt w N4 N3 U) as G0. assert (G : gradient (mean_qh wt) w (g wt taus b w)). { eapply gradient_ext; [|exact G0]. intros h _. cbv beta. rewrite (qloss_eq wt h U). reflexivity. }
  assert (LG : length (g wt taus b w) = length w) by apply G.
  destruct (@gm_update_keeps (qd_loss nS nA K alg wt taus b) (g wt taus b) lr (c_q y) w _ N1 N2 (qloss_eq wt w U) LG) as (l' & E & O & C & S & P).
  set (w' := map (fun i => nth i w 0 - lr * nth i (g wt taus b w) 0) (seq 0 (length w))) in *. assert (LW : length w' = (nS * nA * K)%nat) by (unfold w'; now rewrite map_length, seq_length).
  exists (mkC l' (c_targ y)), w', (match c_targ y with Some _ => wt | None => w' end). cbn [qstep]. rewrite T, E. split; [reflexivity|]. split; [|split; [|split; [reflexivity|]]].
  - split; [exact O|]. split; [exact P|]. split; [exact LW|]. split; [destruct (c_targ y); auto|]. cbn [c_targ c_q]. destruct (c_targ y) as [f|]; auto. rewrite C, S. exact N5.
  - destruct (c_targ y); congruence.
  - intros s a k Hs Ha Hk. unfold val at 1. unfold w'. rewrite nth_seq_map by (rewrite N3; now apply cell_lt). rewrite (@qgrad_cell w wt (g wt taus b w) s a k N3 T1 G Hs Ha Hk). unfold val at 3. unfold Rdiv, val. ring.
Qed.
End Net.
Lemma qstep_sync : forall nS nA K alg g lr sub tau y w wt, nets nS nA K lr sub y w wt -> c_targ y <> None -> exists y' wt', qstep nS nA K alg g sub y (QSync tau) = (y', Ok tt) /\ nets nS nA K lr sub y' w wt' /\ c_targ y' <> None /\
  forall s a k, (s < nS)%nat -> (a < nA)%nat -> (k < K)%nat -> val nA K wt' s a k = tau * val nA K w s a k + (1 - tau) * val nA K wt s a k.
Proof.
  intros nS nA K alg g lr sub tau y w wt (N1 & N2 & N3 & N4 & N5) H. destruct (c_targ y) as [f|] eqn:Ef; [|congruence]. destruct N5 as (P & C & S). destruct (@soft_update_ok sub f (l_func (c_q y)) tau) as (p & st & E & EP & ES); auto.
  - rewrite P, N2. cbn. now rewrite N3, N4.
  - change (Node [0%nat] [Node [0%nat] [Leaf wt]]) with (wrap wt) in P. change (Node [0%nat] [Node [0%nat] [Leaf w]]) with (wrap w) in N2. rewrite P, N2 in EP. apply wrap_entrywise in EP; [|congruence].
    match type of EP with _ = wrap ?x => set (wt' := x) in * end. exists (mkC (c_q y) (Some (mkFunc (f_cls f) p st (f_key f)))), wt'. cbn [qstep]. rewrite Ef, E. split; [reflexivity|]. assert (LW : length wt' = (nS * nA * K)%nat) by (unfold wt'; now rewrite map_length, seq_length). split; [|split; [discriminate|]].
    + split; [exact N1|]. split; [exact N2|]. split; [exact N3|]. split; [exact LW|]. cbn. split; [exact EP|]. split; [exact C|]. destruct ES as [-> _]. exact S.
    + intros s a k Hs Ha Hk. unfold val at 1. unfold wt'. rewrite nth_seq_map by (rewrite N4; now apply cell_lt). unfold val. ring.
Qed.
