From Coq Require Import List Lia Bool Arith Reals Lra.
From Verif Require Import PyCommon CommonProofs UtilsModel UtilsSpec UtilsProofs2 UtilsProofs3 WrappersProofs DistModel DistSpec DistProofs DistProofs2 DistProofs3 LossModel LossSpec LossProofs QModel QProofs QProps TDModel TDSpec TDProofs TDProofs2 TDProofs3 TDProofs4 CoreModel CoreSpec CoreProofs LearnModel LearnSpec LearnProofs LearnProofs2 LearnProofs3 LearnProofs4 LearnProofs5 LearnProofs6 LearnProofs7 NoiseSpec NoiseProofs NoiseProofs2 NoiseProofs3 NoiseProofs4.
Import ListNotations.
Set Implicit Arguments.
Local Open Scope R_scope.

Lemma noisy_beta : forall nS nA nW dyn gamma net target val loss grads lr wl cl M B, noisy_setting nS nA nW dyn gamma net target val loss grads lr wl cl M B -> 0 < cl <= 1 /\ 0 < beta cl lr wl B <= 1.
Proof.
  intros nS nA nW dyn gamma net target val loss grads lr wl cl M B (HA & HW & CL & Hg & TB & AL & PL & GR & Hlr & Hwl & Hlw & HB). destruct (pulls_slope PL) as (Hcl & _). split; auto. unfold beta. assert (P : 1 <= INR B) by (apply (le_INR 1); auto). split.
  - apply Rdiv_lt_0_compat; [apply Rmult_lt_0_compat; nra|lra].
  - apply (Rmult_le_reg_r (INR B)); [lra|]. unfold Rdiv. rewrite Rmult_assoc, Rinv_l, Rmult_1_r, Rmult_1_l by lra. assert (0 < lr * wl) by nra. nra.
Qed.
(** The formula for the gradients is right for noisy batches too. *)
Lemma analytic_noisy : forall nS nA nW l' target net l dyn gamma val, (1 <= nA)%nat -> tabular nS nA net -> (forall y h, derivable_pt_lim (l y) h (l' y h)) -> sound_target nS nA target val ->
  noisy_differentiates nS nA nW dyn gamma net target (zip_loss l) (analytic nS nA l' target).
Proof.
  intros nS nA nW l' target net l dyn gamma val HA T Dl ST th targ rows ws b L Lt SA. pose proof (sampled_in HA SA) as HR.
  assert (DR : combine (fb_S b) (map decode (fb_A b)) = rows).
  { destruct SA as (NE & -> & -> & _). clear NE. rewrite map_map. induction rows as [|[s a] rows IH]; auto. cbn [map combine fst snd]. destruct (HR s a (or_introl eq_refl)). rewrite decode_one_hot by auto. f_equal. apply IH. intros; apply HR; now right. }
  destruct SA as (NE & HS & HAc & HW & L1 & L2 & L3 & L4 & GE).
  destruct (ST th targ (fb_t b) Lt) as (G & TG & LG & _); [split; lia| |].
  { intros s Hs. apply In_nth_error in Hs. destruct Hs as [i Hi]. assert (i < length rows)%nat by (rewrite <- L3; apply nth_error_Some; congruence). destruct (nth_error rows i) as [[s0 a0]|] eqn:R0; [|apply nth_error_None in R0; lia]. now destruct (GE _ _ _ _ R0 Hi) as (_ & _ & _ & ? & _). }
  unfold analytic. rewrite DR, TG. apply (@table_gradient nS nA HA net T l l' Dl target rows b th targ G th HS HAc HW ltac:(lia) NE HR TG L).
Qed.

(** * A transition as a batch *)
Definition row_batch (nA : nat) (dyn : nat -> nat -> nat -> nat * R * bool) (gamma : R) (w : nat) (r : nat * nat) : fbatch nat :=
  mk_fb [fst r] [one_hot nA (snd r)] [1] (mk_tb [reward (dyn w) (fst r) (snd r)] [if ends (dyn w) (fst r) (snd r) then 0 else gamma] [next (dyn w) (fst r) (snd r)] [one_hot nA 0]).
Lemma row_sampled : forall nS nA nW dyn gamma w r, all_closed nS nA nW dyn -> (w < nW)%nat -> (fst r < nS)%nat -> (snd r < nA)%nat -> sampled nS nA nW dyn gamma [r] [w] (row_batch nA dyn gamma w r).
Proof.
  intros nS nA nW dyn gamma w [s a] CL Hw Hs Ha. cbn in Hs, Ha. split; [discriminate|]. do 7 (split; [reflexivity|]). intros i s0 a0 s' H1 H2. destruct i as [|i]; [|destruct i; discriminate]. cbn in H1, H2. injection H1 as <- <-. injection H2 as <-. cbn -[reward ends next].
  split; [auto|]. split; [auto|]. split; [auto|]. split; [now apply CL|]. split; auto. destruct (ends (dyn w) s a); auto.
Qed.
(** Programs that update one pair after the other. *)
Definition row_prog (nA : nat) (dyn : nat -> nat -> nat -> nat * R * bool) (gamma : R) (rows : list (nat * nat)) (ws : list nat) : list yop := map (fun p => YUpdate (row_batch nA dyn gamma (snd p) (fst p))) (combine rows ws).
Definition row_decisions (rows : list (nat * nat)) : list decision := map (fun r => DUpdate [r] [1]) rows.
Lemma row_noises : forall rows, noises (row_decisions rows) = length rows.
Proof. induction rows as [|r rows IH]; auto. change (noises (row_decisions (r :: rows))) with (S (noises (row_decisions rows))). now rewrite IH. Qed.
Lemma row_follows : forall nS nA nW dyn gamma rows ws, all_closed nS nA nW dyn -> (forall s a, In (s, a) rows -> (s < nS)%nat /\ (a < nA)%nat) -> noise_list nW (length rows) ws -> follows nS nA nW dyn gamma (row_decisions rows) ws (row_prog nA dyn gamma rows ws).
Proof.
  intros nS nA nW dyn gamma rows ws CL HR [L B]. revert ws L B. induction rows as [|r rows IH]; intros [|w ws] L B; try discriminate; [constructor|]. cbn [row_decisions row_prog combine map fst snd]. change (w :: ws) with ([w] ++ ws).
  apply (@follows_update nS nA nW dyn gamma [r] [w] (row_batch nA dyn gamma w r)).
  - apply row_sampled; auto; [apply B; now left|destruct r; apply (HR n n0); now left|destruct r; apply (HR n n0); now left].
  - apply IH; [intros; apply HR; now right|now injection L|intros; apply B; now right].
Qed.

(** * QLearning overestimates *)
Definition coin (w : nat) : R := if Nat.eqb w 0 then 1 else -1.
(** State 0 leads to state 1; there, both actions win or lose 1 with equal chance and end the episode. *)
Definition gamble (w s a : nat) : nat * R * bool := match s with 0%nat => (1%nat, 0, false) | _ => (1%nat, coin w, true) end.
Lemma gamble_closed : all_closed 2 2 2 gamble.
Proof. intros w Hw s a Hs Ha. unfold next, gamble. destruct s; cbn; lia. Qed.
Definition four : list (nat * nat) := [(1, 0); (1, 1); (0, 0); (0, 1)]%nat.
Fixpoint fours (k : nat) : list (nat * nat) := match k with O => [] | S k' => four ++ fours k' end.
Lemma fours_length : forall k, length (fours k) = (4 * k)%nat.
Proof. induction k as [|k IH]; auto. cbn [fours]. rewrite app_length, IH. cbn. lia. Qed.
Lemma fours_snoc : forall k, fours (S k) = fours k ++ four.
Proof. induction k as [|k IH]; [reflexivity|]. cbn [fours] in *. rewrite <- app_assoc. f_equal. exact IH. Qed.
Lemma fours_in : forall k s a, In (s, a) (fours k) -> (s < 2)%nat /\ (a < 2)%nat.
Proof. induction k as [|k IH]; intros s a; [intros []|]. cbn [fours]. intros H. apply in_app_or in H. destruct H as [H|H]; [|now apply IH]. destruct H as [H|[H|[H|[H|[]]]]]; injection H as <- <-; lia. Qed.
Lemma row_prog_app : forall nA dyn gamma r1 r2 w1 w2, length r1 = length w1 -> row_prog nA dyn gamma (r1 ++ r2) (w1 ++ w2) = row_prog nA dyn gamma r1 w1 ++ row_prog nA dyn gamma r2 w2.
Proof.
  intros nA dyn gamma r1 r2 w1 w2 L. unfold row_prog. rewrite <- map_app. f_equal. revert w1 L. induction r1 as [|r r1 IH]; intros [|w w1] L; try discriminate; auto. cbn. f_equal. apply IH. now injection L.
Qed.
Section Gamble.
Variables (net : list R -> qfun nat R) (sub : nat -> nat -> bool) (grads : list R -> list R -> fbatch nat -> list R).
Hypothesis T : tabular 2 2 net.
Notation target := (target_q 2 net).
Hypothesis GR : noisy_differentiates 2 2 2 gamble (1/2) net target mse grads.
Notation tq := (tq 2).
Notation okay := (ok_sys 2 2 sub 1).
Notation yrun := (yrun 2 net target mse grads sub).
(** One update sets one entry. *)
Lemma set_entry : forall y w r, okay y -> y_targ y = None -> (w < 2)%nat -> (fst r < 2)%nat -> (snd r < 2)%nat ->
  exists y', ystep 2 net target mse grads sub y (YUpdate (row_batch 2 gamble (1/2) w r)) = (y', Ok tt) /\ okay y' /\ y_targ y' = None /\
  (forall s a, (s < 2)%nat -> (a < 2)%nat -> (s, a) <> r -> tq (tab (q_params y')) s a = tq (tab (q_params y)) s a) /\
  tq (tab (q_params y')) (fst r) (snd r) = match fst r with 0%nat => 1/2 * Rmax (tq (tab (q_params y)) 1 0) (tq (tab (q_params y)) 1 1) | _ => coin w end.
Proof.
  intros y w r (SG & [Q L] & [P Lt]) NT Hw Hs Ha. assert (SA := @row_sampled 2 2 2 gamble (1/2) w r gamble_closed Hw Hs Ha).
  assert (H2 : (1 <= 2)%nat) by lia. assert (ST := target_q_sound H2 T).
  assert (XV : exists v : nat -> (nat -> R) -> R, forall s h, by_max 2 s h (v s h)) by (exact (proj2 (algorithm_one H2 (alg_q 2 net)))). destruct XV as [v HV].
  destruct (@sampled_update 2 2 2 H2 net T gamble (1/2) target (by_max 2) ST v HV mse1 (fun y h => h - y) mse_deriv grads sub 1 GR y _ _ [r] [w] _ SG Q L P Lt SA) as (y' & th' & G & Y1 & Y2 & Y3 & Y4 & Y5 & LG & WG & C).
  exists y'. split; [exact Y1|]. assert (TY : tab (q_params y') = th') by (rewrite Y4; reflexivity).
  assert (TP : targ_params y' = q_params y') by (unfold targ_params; now rewrite Y3, NT).
  split; [split; auto; split; [split; [now rewrite TY|congruence]|rewrite TP; split; [now rewrite TY|congruence]]|]. split; [now rewrite Y3|].
  assert (W1 : nth 0 (clip_w (fb_W (row_batch 2 gamble (1 / 2) w r))) 0 = 1) by (rewrite clip_w_nth by (cbn; lia); rewrite wclip; cbn; unfold Rmax, Rmin; repeat destruct (Rle_dec _ _); lra).
  assert (CE : forall s a, (s < 2)%nat -> (a < 2)%nat -> tq th' s a = if same_pair r (s, a) then nth 0 G 0 else tq (tab (q_params y)) s a).
  { intros s a Hs' Ha'. rewrite (C s a Hs' Ha'). cbn [length seq map nth]. rewrite total_cons. change (total []) with 0. rewrite W1. cbn [INR]. destruct (same_pair r (s, a)); field. }
  rewrite TY. split.
  - intros s a Hs' Ha' N. rewrite (CE s a Hs' Ha'). destruct (same_pair r (s, a)) eqn:E; auto. apply same_pair_spec in E. congruence.
  - rewrite (CE (fst r) (snd r) Hs Ha). rewrite <- surjective_pairing. assert (SP : same_pair r r = true) by now apply same_pair_spec. rewrite SP. destruct (WG 0%nat (fst r) (snd r)) as (m & M & ->); [cbn; now rewrite <- surjective_pairing|].
    assert (TPy : targ_params y = q_params y) by (unfold targ_params; now rewrite NT). rewrite TPy in M. unfold reward, ends, next, gamble in *. destruct (fst r) as [|s0]; cbn [fst snd nth] in *.
    + assert (m = Rmax (tq (tab (q_params y)) 1 0) (tq (tab (q_params y)) 1 1)); [|subst; lra]. destruct M as [[a [Ha' <-]] MX]. pose proof (MX 0%nat ltac:(lia)). pose proof (MX 1%nat ltac:(lia)). assert (A2 : a = 0%nat \/ a = 1%nat) by lia. unfold Rmax. destruct (Rle_dec _ _), A2 as [-> | ->]; lra.
    + lra.
Qed.
Lemma four_round : forall y w0 w1 w2 w3, okay y -> y_targ y = None -> noise_list 2 4 [w0; w1; w2; w3] ->
  exists y', yrun y (row_prog 2 gamble (1/2) four [w0; w1; w2; w3]) = (y', Ok tt) /\ okay y' /\ y_targ y' = None /\
  tq (tab (q_params y')) 1 0 = coin w0 /\ tq (tab (q_params y')) 1 1 = coin w1 /\ tq (tab (q_params y')) 0 0 = 1/2 * Rmax (coin w0) (coin w1) /\ tq (tab (q_params y')) 0 1 = 1/2 * Rmax (coin w0) (coin w1).
Proof.
  intros y w0 w1 w2 w3 OK NT [_ B]. assert (B0 : (w0 < 2)%nat) by (apply B; cbn; auto). assert (B1 : (w1 < 2)%nat) by (apply B; cbn; auto). assert (B2 : (w2 < 2)%nat) by (apply B; cbn; auto). assert (B3 : (w3 < 2)%nat) by (apply B; cbn; auto).
  destruct (@set_entry y w0 (1, 0)%nat OK NT B0) as (y1 & S1 & O1 & N1 & K1 & V1); [cbn; lia|cbn; lia|].
  destruct (@set_entry y1 w1 (1, 1)%nat O1 N1 B1) as (y2 & S2 & O2 & N2 & K2 & V2); [cbn; lia|cbn; lia|].
  destruct (@set_entry y2 w2 (0, 0)%nat O2 N2 B2) as (y3 & S3 & O3 & N3 & K3 & V3); [cbn; lia|cbn; lia|].
  destruct (@set_entry y3 w3 (0, 1)%nat O3 N3 B3) as (y4 & S4 & O4 & N4 & K4 & V4); [cbn; lia|cbn; lia|].
  cbn [fst snd] in V1, V2, V3, V4. exists y4. unfold row_prog, four. cbn [combine map fst snd yrun]. rewrite S1, S2, S3, S4. split; auto. split; auto. split; auto.
  assert (E10 : tq (tab (q_params y2)) 1 0 = coin w0) by (rewrite K2; [exact V1|lia|lia|congruence]).
  assert (E10' : tq (tab (q_params y3)) 1 0 = coin w0) by (rewrite K3; [exact E10|lia|lia|congruence]).
  assert (E11' : tq (tab (q_params y3)) 1 1 = coin w1) by (rewrite K3; [exact V2|lia|lia|congruence]).
  rewrite E10', E11' in V4. rewrite E10, V2 in V3.
  split; [rewrite K4; [exact E10'|lia|lia|congruence]|]. split; [rewrite K4; [exact E11'|lia|lia|congruence]|]. split; [rewrite K4; [exact V3|lia|lia|congruence]|exact V4].
Qed.
Definition outcome_of (l : list nat) (s a : nat) : R := match s with 0%nat => 1/2 * Rmax (coin (nth 0 l 0%nat)) (coin (nth 1 l 0%nat)) | _ => match a with 0%nat => coin (nth 0 l 0%nat) | _ => coin (nth 1 l 0%nat) end end.
Lemma noise_split : forall nW n m ws, noise_list nW (n + m) ws -> noise_list nW n (firstn n ws) /\ noise_list nW m (skipn n ws) /\ ws = firstn n ws ++ skipn n ws.
Proof.
  intros nW n m ws [L B]. assert (E := firstn_skipn n ws). split; [split; [rewrite firstn_length; lia|]|split; [split; [rewrite skipn_length; lia|]|auto]]; intros w I; apply B; rewrite <- E; apply in_or_app; auto.
Qed.
Lemma fours_run : forall k y ws, okay y -> y_targ y = None -> noise_list 2 (4 * k + 4) ws ->
  exists y', yrun y (row_prog 2 gamble (1/2) (fours (S k)) ws) = (y', Ok tt) /\ okay y' /\ y_targ y' = None /\ forall s a, (s < 2)%nat -> (a < 2)%nat -> tq (tab (q_params y')) s a = outcome_of (skipn (4 * k) ws) s a.
Proof.
  assert (ALL : forall k y ws, okay y -> y_targ y = None -> noise_list 2 (4 * k) ws -> exists y', yrun y (row_prog 2 gamble (1/2) (fours k) ws) = (y', Ok tt) /\ okay y' /\ y_targ y' = None).
  { induction k as [|k IH]; intros y ws OK NT NL; [exists y; auto|]. replace (4 * S k)%nat with (4 + 4 * k)%nat in NL by lia. destruct (noise_split _ _ NL) as (N1 & N2 & E). rewrite E. cbn [fours]. rewrite row_prog_app by (destruct N1 as [-> _]; reflexivity). rewrite yrun_app.
    destruct (firstn 4 ws) as [|w0 [|w1 [|w2 [|w3 [|]]]]]; destruct N1 as [L1 B1]; try discriminate. destruct (@four_round y w0 w1 w2 w3 OK NT) as (y1 & R1 & O1 & T1 & _); [split; auto|]. rewrite R1. now apply IH. }
  intros k y ws OK NT NL. destruct (noise_split _ _ NL) as (N1 & N2 & E). 
  assert (EP : row_prog 2 gamble (1/2) (fours (S k)) ws = row_prog 2 gamble (1/2) (fours k) (firstn (4 * k) ws) ++ row_prog 2 gamble (1/2) four (skipn (4 * k) ws)) by (rewrite <- row_prog_app by (rewrite fours_length; destruct N1 as [-> _]; reflexivity); rewrite <- E, fours_snoc; reflexivity). rewrite EP, yrun_app.
  destruct (ALL k y _ OK NT N1) as (y1 & R1 & O1 & T1). rewrite R1. destruct (skipn (4 * k) ws) as [|w0 [|w1 [|w2 [|w3 [|]]]]]; destruct N2 as [L2 B2]; try discriminate. destruct (@four_round y1 w0 w1 w2 w3 O1 T1) as (y2 & R2 & O2 & T2 & V1 & V2 & V3 & V4); [split; auto|]. exists y2. rewrite R2. split; auto. split; auto. split; auto.
  intros s a Hs Ha. unfold outcome_of. cbn [nth]. destruct s as [|[|]]; [| |lia]; (destruct a as [|[|]]; [| |lia]); auto.
Qed.
End Gamble.
Lemma half_dist : distribution [1/2; 1/2].
Proof. split; [intros x [<-|[<-|[]]]; lra|cbn; lra]. Qed.
Lemma gamble_mean : forall k, mean_over [1/2; 1/2] (4 * k + 4) (fun ws => outcome_of (skipn (4 * k) ws) 0 0) = 1/4.
Proof.
  intros k. rewrite mean_app. rewrite (@mean_ext _ (4 * k) _ (fun _ => 1/4)); [apply mean_const; apply half_dist|]. intros a [L _]. rewrite (@mean_ext _ 4 _ (fun b => outcome_of b 0 0)) by (intros b _; rewrite skipn_app, <- L, skipn_all, Nat.sub_diag; reflexivity).
  assert (M1 : Rmax 1 1 = 1) by (unfold Rmax; destruct (Rle_dec _ _); lra). assert (M2 : Rmax 1 (-1) = 1) by (unfold Rmax; destruct (Rle_dec _ _); lra). assert (M3 : Rmax (-1) 1 = 1) by (unfold Rmax; destruct (Rle_dec _ _); lra). assert (M4 : Rmax (-1) (-1) = -1) by (unfold Rmax; destruct (Rle_dec _ _); lra).
  cbn [mean_over length seq map nth outcome_of coin Nat.eqb]. unfold total. cbn [fold_right]. rewrite M1, M2, M3, M4. lra.
Qed.

(** * Fluctuations *)
Definition flip (w s a : nat) : nat * R * bool := (0%nat, coin w, true).
Lemma flip_closed : all_closed 1 1 2 flip.
Proof. intros w Hw s a Hs Ha. unfold next, flip. cbn. lia. Qed.
Fixpoint wander (lr x : R) (ws : list nat) : R := match ws with [] => x | w :: ws' => wander lr ((1 - lr) * x + lr * coin w) ws' end.
Lemma wander_mean : forall lr k x, mean_over [1/2; 1/2] k (wander lr x) = (1 - lr) ^ k * x.
Proof.
  intros lr. induction k as [|k IH]; intros x; cbn [mean_over]; [cbn; lra|]. cbn [length seq map nth wander]. unfold total. cbn [fold_right]. rewrite !IH. unfold coin. cbn [Nat.eqb pow]. lra.
Qed.
Lemma wander_square : forall lr k x, 0 < lr < 2 -> mean_over [1/2; 1/2] k (fun ws => wander lr x ws * wander lr x ws) = ((1 - lr) * (1 - lr)) ^ k * (x * x) + lr / (2 - lr) * (1 - ((1 - lr) * (1 - lr)) ^ k).
Proof.
  intros lr k x Hl. revert x. induction k as [|k IH]; intros x; cbn [mean_over]; [cbn; lra|]. cbn [length seq map nth wander]. unfold total. cbn [fold_right]. rewrite !IH. unfold coin. cbn [Nat.eqb pow]. set (p := ((1 - lr) * (1 - lr)) ^ k). field. lra.
Qed.
Lemma flip_run : forall nA0 pi lr ht k x ws, nA0 = 1%nat -> length ws = k -> forall P gamma, fst (srun nA0 flip P gamma pi lr ht x (repeat (DUpdate [(0, 0)%nat] [1]) k) ws) 0%nat 0%nat = wander lr (fst x 0%nat 0%nat) ws.
Proof.
  intros nA0 pi lr ht k x ws -> L P gamma. revert x ws L. induction k as [|k IH]; intros x [|w ws] L; try discriminate; auto. cbn [repeat srun length firstn skipn]. rewrite IH by (now injection L). cbn [wander]. f_equal. cbn [sstep fst]. unfold upd. cbn [length seq map nth]. rewrite total_cons. change (total []) with 0.
  assert (W1 : nth 0 (clip_w [1]) 0 = 1) by (rewrite clip_w_nth by (cbn; lia); rewrite wclip; cbn; unfold Rmax, Rmin; repeat destruct (Rle_dec _ _); lra). rewrite W1. unfold row_worth, reward, ends, flip. cbn [fst snd same_pair Nat.eqb andb INR]. change (same_pair (0, 0)%nat (0, 0)%nat) with true. cbn iota. field.
Qed.
