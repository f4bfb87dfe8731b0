From Coq Require Import List Lia Bool Arith Reals Lra.
From Verif Require Import PyCommon CommonProofs UtilsModel UtilsSpec UtilsProofs2 UtilsProofs3 WrappersProofs DistModel DistSpec DistProofs DistProofs2 DistProofs3 LossModel LossSpec LossProofs QModel QProofs QProps TDModel TDSpec TDProofs TDProofs2 TDProofs3 TDProofs4 CoreModel CoreSpec CoreProofs.
From Verif Require Import LearnModel LearnSpec LearnProofs LearnProofs2 LearnProofs3 LearnProofs4 LearnProofs5 LearnProofs6 LearnProofs7 NoiseSpec NoiseProofs NoiseProofs2 NoiseProofs3 NoiseProofs4 NoiseProofs5 ChanceModel ChanceSpec ChanceProofs.
Import ListNotations.
Set Implicit Arguments.
Local Open Scope R_scope.

(** * The mean values lie between the values of the worst and the best luck *)
Lemma min_pos : forall n k (d : nat -> nat -> R), (forall s a, (s < n)%nat -> (a < k)%nat -> 0 < d s a) -> exists e, 0 < e /\ forall s a, (s < n)%nat -> (a < k)%nat -> e <= d s a.
Proof.
  intros n k d. revert n. assert (ROW : forall s, (forall a, (a < k)%nat -> 0 < d s a) -> exists e, 0 < e /\ forall a, (a < k)%nat -> e <= d s a).
  { intros s. induction k as [|k' IH]; intros H; [exists 1; split; [lra|intros; lia]|]. destruct IH as (e & He & X); [intros; apply H; lia|]. exists (Rmin e (d s k')). split; [apply Rmin_glb_lt; auto|]. intros a Ha. destruct (Nat.eq_dec a k') as [-> |]; [apply Rmin_r|]. eapply Rle_trans; [apply Rmin_l|apply X; lia]. }
  induction n as [|n IH]; intros H; [exists 1; split; [lra|intros; lia]|]. destruct IH as (e & He & X); [intros; apply H; lia|]. destruct (ROW n) as (e' & He' & X'); [intros; apply H; lia|].
  exists (Rmin e e'). split; [now apply Rmin_glb_lt|]. intros s a Hs Ha. destruct (Nat.eq_dec s n) as [-> |]; [eapply Rle_trans; [apply Rmin_r|auto]|]. eapply Rle_trans; [apply Rmin_l|apply X; auto; lia].
Qed.
Section Between.
Variables nS nA : nat.
Variable dyn : nat -> nat -> nat -> nat * R * bool.
Variable P : list R.
Variable gamma : R.
Hypothesis HP : distribution P.
Hypothesis CL : all_closed nS nA (length P) dyn.
Hypothesis Hg : 0 <= gamma < 1.
Variable q : nat -> nat -> R.
Hypothesis BE : mean_bellman nS nA (length P) dyn P gamma (by_max nA) q.
Lemma mean_at_most : forall hi, at_most nS nA (length P) dyn gamma (by_max nA) hi -> forall s a, (s < nS)%nat -> (a < nA)%nat -> q s a <= hi s a.
Proof.
  intros hi H. set (E := bound nS nA (fun s a => q s a - hi s a)). assert (PE : 0 <= E) by apply bound_pos.
  assert (X : forall n s a, (s < nS)%nat -> (a < nA)%nat -> q s a <= hi s a + gamma ^ n * E).
  { induction n as [|n IH]; intros s a Hs Ha. { cbn [pow]. rewrite Rmult_1_l. assert (Z := @bound_ok nS nA (fun s a => q s a - hi s a) s a Hs Ha). fold E in Z. unfold Rabs in Z. destruct (Rcase_abs _) in Z; lra. }
    destruct (BE Hs Ha) as (x & XW & ->). apply Rle_trans with (total (map (fun w => nth w P 0 * (hi s a + gamma ^ S n * E)) (seq 0 (length P)))).
    - apply total_le. intros w Hw. apply in_seq in Hw. apply Rmult_le_compat_l; [now apply p_pos|]. destruct (H s a w Hs Ha ltac:(lia)) as (x' & (m' & M' & ->) & LE). destruct (XW w ltac:(lia)) as (m & Mx & ->). assert (0 <= gamma ^ S n * E) by (apply Rmult_le_pos; auto; apply pow_le; lra).
      destruct (ends (dyn w) s a); [lra|]. assert (Z : m <= m' + gamma ^ n * E). { eapply (@by_max_one nA); [|exact Mx|exact M']. intros c Hc. apply IH; auto. apply (@CL w ltac:(lia)); auto. } apply (Rmult_le_compat_l gamma) in Z; [|lra]. cbn [pow]. lra.
    - rewrite (@total_ext _ _ (fun w => (hi s a + gamma ^ S n * E) * nth w P 0)) by (intros; ring). rewrite total_scal, (@P_total (length P) P HP eq_refl). lra. }
  intros s a Hs Ha. apply Rnot_lt_le. intros C. destruct (@pow_small gamma E ((q s a - hi s a) / 2) Hg PE) as [N HN]; [lra|]. specialize (HN N (le_n _)). specialize (X N s a Hs Ha). lra.
Qed.
Lemma mean_at_least : forall lo, at_least nS nA (length P) dyn gamma (by_max nA) lo -> forall s a, (s < nS)%nat -> (a < nA)%nat -> lo s a <= q s a.
Proof.
  intros lo H. set (E := bound nS nA (fun s a => q s a - lo s a)). assert (PE : 0 <= E) by apply bound_pos.
  assert (X : forall n s a, (s < nS)%nat -> (a < nA)%nat -> lo s a - gamma ^ n * E <= q s a).
  { induction n as [|n IH]; intros s a Hs Ha. { cbn [pow]. rewrite Rmult_1_l. assert (Z := @bound_ok nS nA (fun s a => q s a - lo s a) s a Hs Ha). fold E in Z. unfold Rabs in Z. destruct (Rcase_abs _) in Z; lra. }
    destruct (BE Hs Ha) as (x & XW & ->). apply Rle_trans with (total (map (fun w => nth w P 0 * (lo s a - gamma ^ S n * E)) (seq 0 (length P)))).
    - rewrite (@total_ext _ _ (fun w => (lo s a - gamma ^ S n * E) * nth w P 0)) by (intros; ring). rewrite total_scal, (@P_total (length P) P HP eq_refl). lra.
    - apply total_le. intros w Hw. apply in_seq in Hw. apply Rmult_le_compat_l; [now apply p_pos|]. destruct (H s a w Hs Ha ltac:(lia)) as (x' & (m' & M' & ->) & LE). destruct (XW w ltac:(lia)) as (m & Mx & ->). assert (0 <= gamma ^ S n * E) by (apply Rmult_le_pos; auto; apply pow_le; lra).
      destruct (ends (dyn w) s a); [lra|]. assert (Z : m' <= m + gamma ^ n * E). { eapply (@by_max_one nA); [|exact M'|exact Mx]. intros c Hc. assert (Y := IH (next (dyn w) s a) c (@CL w ltac:(lia) s a Hs Ha) Hc). lra. } apply (Rmult_le_compat_l gamma) in Z; [|lra]. cbn [pow]. lra. }
  intros s a Hs Ha. apply Rnot_lt_le. intros C. destruct (@pow_small gamma E ((lo s a - q s a) / 2) Hg PE) as [N HN]; [lra|]. specialize (HN N (le_n _)). specialize (X N s a Hs Ha). lra.
Qed.
End Between.

(** * An environment in which a constant learning rate never suffices *)

(** One state; action 0 earns 1/4, action 1 earns 1 or -1 with equal chance. *)
Definition risky (w s a : nat) : nat * R * bool := (0%nat, (match a with O => 1/4 | _ => if Nat.eqb w 0 then 1 else -1 end), true).
Lemma risky_closed : all_closed 1 2 2 risky.
Proof. intros w Hw s a Hs Ha. cbn. lia. Qed.
Definition both : list decision := [DUpdate [(0, 0)%nat] [1]; DUpdate [(0, 1)%nat] [1]].
Section Risky.
Variables (net : list R -> qfun nat R) (target : list R -> list R -> tbatch nat -> outcome (list R)) (val : valuation).
Variables (grads : list R -> list R -> fbatch nat -> list R) (sub : nat -> nat -> bool) (lr gamma : R).
Hypothesis T : tabular 1 2 net.
Hypothesis AL : algorithm 2 net target val.
Hypothesis GR : noisy_differentiates 1 2 2 risky gamma net target mse grads.
Hypothesis Hl : 0 < lr <= 1.
Notation tq := (tq 2).
Notation okay := (ok_sys 1 2 sub lr).
Lemma risky_update : forall y a w b, okay y -> (a < 2)%nat -> sampled 1 2 2 risky gamma [(0%nat, a)] [w] b -> fb_W b = [1] ->
  exists y', ystep 2 net target mse grads sub y (YUpdate b) = (y', Ok tt) /\ okay y' /\
  forall c, (c < 2)%nat -> tq (tab (q_params y')) 0 c = if Nat.eqb a c then (1 - lr) * tq (tab (q_params y)) 0 c + lr * (match c with O => 1/4 | _ => coin w end) else tq (tab (q_params y)) 0 c.
Proof.
  intros y a w b (SG & [Q L] & [PT Lt]) Ha SA HW. assert (H2 : (1 <= 2)%nat) by lia. destruct (algorithm_ok H2 T AL) as [ST _]. destruct (proj2 (algorithm_one H2 AL)) as [v HV].
  destruct (@sampled_update 1 2 2 H2 net T risky gamma target val ST v HV mse1 (fun y h => h - y) mse_deriv grads sub lr GR y _ _ [(0%nat, a)] [w] _ SG Q L PT Lt SA) as (y' & th' & G & Y1 & Y2 & Y3 & Y4 & Y5 & LG & WG & C).
  exists y'. split; [exact Y1|]. assert (TY : tab (q_params y') = th') by (rewrite Y4; reflexivity).
  assert (I1 : is_tab 1 2 (q_params y')) by (split; [now rewrite TY|congruence]).
  split; [split; auto; split; auto; unfold targ_params in *; rewrite Y3; destruct (y_targ y); [split; auto|exact I1]|].
  intros c Hc. rewrite TY, (C 0%nat c ltac:(lia) Hc). cbn [length seq map nth]. rewrite total_cons. change (total []) with 0.
  assert (W1 : nth 0 (clip_w (fb_W b)) 0 = 1) by (rewrite HW, clip_w_nth by (cbn; lia); rewrite wclip; cbn; unfold Rmax, Rmin; repeat destruct (Rle_dec _ _); lra). rewrite W1. cbn [INR].
  destruct (WG 0%nat 0%nat a eq_refl) as (m & _ & EG). cbn [nth] in EG. unfold reward, ends, risky in EG. cbn [fst snd] in EG. unfold same_pair. cbn [fst snd Nat.eqb andb]. destruct (Nat.eqb_spec a c) as [->|NE]; [|field].
  rewrite EG. unfold coin. destruct c; field.
Qed.
(** The values after k rounds. *)
Fixpoint walk (x : R) (ws : list nat) : R := match ws with _ :: w :: ws' => walk ((1 - lr) * x + lr * coin w) ws' | _ => x end.
Lemma follows_two : forall k ws os, follows 1 2 2 risky gamma (concat (repeat both (S k))) ws os -> exists w0 w1 ws' b0 b1 os', ws = w0 :: w1 :: ws' /\ os = YUpdate b0 :: YUpdate b1 :: os' /\
  sampled 1 2 2 risky gamma [(0, 0)%nat] [w0] b0 /\ fb_W b0 = [1] /\ sampled 1 2 2 risky gamma [(0, 1)%nat] [w1] b1 /\ fb_W b1 = [1] /\ follows 1 2 2 risky gamma (concat (repeat both k)) ws' os'.
Proof.
  intros k ws os F. cbn [repeat concat both app] in F. inversion F as [|r0 v0 b0 d0 u0 o0 S0 F0 E1 E2 E3|]. subst. inversion F0 as [|r1 v1 b1 d1 u1 o1 S1 F1 E1' E2' E3'|]. subst.
  assert (L0 : length v0 = 1%nat) by (destruct S0 as (_ & _ & _ & _ & _ & _ & _ & X & _); exact X). assert (L1 : length v1 = 1%nat) by (destruct S1 as (_ & _ & _ & _ & _ & _ & _ & X & _); exact X).
  destruct v0 as [|w0 [|]]; try discriminate. destruct v1 as [|w1 [|]]; try discriminate. exists w0, w1, u1, b0, b1, o1. repeat (split; auto).
Qed.
Lemma risky_run : forall k ws os y, okay y -> follows 1 2 2 risky gamma (concat (repeat both k)) ws os ->
  exists y', yrun 2 net target mse grads sub y os = (y', Ok tt) /\ okay y' /\
  tq (tab (q_params y')) 0 0 = 1/4 + (1 - lr) ^ k * (tq (tab (q_params y)) 0 0 - 1/4) /\ tq (tab (q_params y')) 0 1 = walk (tq (tab (q_params y)) 0 1) ws.
Proof.
  induction k as [|k IH]; intros ws os y OK F.
  - cbn in F. inversion F. subst. exists y. split; [reflexivity|]. split; auto. split; [cbn; ring|reflexivity].
  - destruct (@follows_two k ws os F) as (w0 & w1 & ws' & b0 & b1 & os' & -> & -> & S0 & W0 & S1 & W1 & F'). destruct (@risky_update y 0%nat w0 b0 OK ltac:(lia) S0 W0) as (y1 & E1 & OK1 & V1). destruct (@risky_update y1 1%nat w1 b1 OK1 ltac:(lia) S1 W1) as (y2 & E2 & OK2 & V2).
    destruct (IH ws' os' y2 OK2 F') as (y' & E & OK' & A & B). exists y'. split; [cbn [yrun]; rewrite E1, E2; exact E|]. split; auto.
    assert (X0 := V1 0%nat ltac:(lia)). assert (X1 := V1 1%nat ltac:(lia)). assert (Z0 := V2 0%nat ltac:(lia)). assert (Z1 := V2 1%nat ltac:(lia)). cbn [Nat.eqb] in X0, X1, Z0, Z1. split.
    + rewrite A, Z0, X0. cbn [pow]. ring.
    + rewrite B, Z1, X1. reflexivity.
Qed.
Lemma coin_abs : forall w, -1 <= coin w <= 1.
Proof. intros w. unfold coin. destruct (Nat.eqb w 0); lra. Qed.
Lemma walk_bound : forall C, 1 <= C -> forall n ws x, (length ws <= n)%nat -> - C <= x <= C -> - C <= walk x ws <= C.
Proof.
  intros C HC. induction n as [|n IH]; intros ws x Ln Hx; [destruct ws; [exact Hx|cbn in Ln; lia]|]. destruct ws as [|w0 [|w ws]]; [exact Hx|exact Hx|]. cbn [walk]. apply IH; [cbn in Ln; lia|]. assert (Z := coin_abs w).
  assert (A1 : (1 - lr) * x <= (1 - lr) * C) by (apply Rmult_le_compat_l; lra). assert (A2 : (1 - lr) * - C <= (1 - lr) * x) by (apply Rmult_le_compat_l; lra). assert (B1 : lr * coin w <= lr * C) by (apply Rmult_le_compat_l; lra). assert (B2 : lr * - C <= lr * coin w) by (apply Rmult_le_compat_l; lra). lra.
Qed.
Lemma walk_app : forall i a b x, length a = (2 * i)%nat -> walk x (a ++ b) = walk (walk x a) b.
Proof. induction i as [|i IH]; intros a b x La; [destruct a; [reflexivity|discriminate]|]. destruct a as [|w0 [|w a]]; try (cbn in La; lia). cbn [app walk]. apply IH. cbn in La. lia. Qed.
Lemma walk_lucky : forall j x, walk x (repeat 0%nat (2 * j)) = 1 - (1 - lr) ^ j * (1 - x).
Proof. induction j as [|j IH]; intros x; [cbn; ring|]. replace (2 * S j)%nat with (S (S (2 * j))) by lia. cbn [repeat walk]. rewrite IH. unfold coin. cbn [Nat.eqb pow]. ring. Qed.
End Risky.
Lemma mean_lucky : forall n F, (forall ws, noise_list 2 n ws -> 0 <= F ws) -> (1/2) ^ n * F (repeat 0%nat n) <= mean_over [1/2; 1/2] n F.
Proof.
  induction n as [|n IH]; intros F H; [cbn; lra|]. cbn [mean_over length seq map nth repeat pow]. unfold total. cbn [fold_right].
  assert (A : (1/2) ^ n * F (0%nat :: repeat 0%nat n) <= mean_over [1/2; 1/2] n (fun ws => F (0%nat :: ws))) by (apply (IH (fun ws => F (0%nat :: ws))); intros ws HW; apply H; apply noise_cons_i; auto; lia).
  assert (B : 0 <= mean_over [1/2; 1/2] n (fun ws => F (1%nat :: ws))). { rewrite <- (@mean_const [1/2; 1/2] half_dist n 0). apply (@mean_le [1/2; 1/2] half_dist). intros ws HW. apply H. apply noise_cons_i; auto; lia. }
  lra.
Qed.
