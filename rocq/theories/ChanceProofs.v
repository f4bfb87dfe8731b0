From Coq Require Import List Lia Bool Arith Reals Lra.
From Verif Require Import PyCommon CommonProofs UtilsModel UtilsSpec UtilsProofs2 UtilsProofs3 DistModel DistSpec DistProofs DistProofs2 LossModel LossSpec QModel TDModel TDSpec TDProofs PolicyModel PolicySpec PolicyProofs PolicyProofs2 PolicyProofs3 PolicyProofs4 PolicyProofs5 PolicyProps.
From Verif Require Import MeanSpec MeanProofs GumbelProps LearnSpec LearnProofs5 NoiseSpec NoiseProofs2 NoiseProofs4 PlayModel PlaySpec PlayProofs PlayProofs2 ChanceModel ChanceSpec.
Import ListNotations.
Set Implicit Arguments.
Local Open Scope R_scope.

Lemma geometric_pos : forall gamma n, 0 <= gamma -> 0 <= geometric gamma n.
Proof. intros gamma n Hg. induction n as [|n IH]; cbn [geometric]; [lra|]. assert (0 <= gamma * geometric gamma n) by (apply Rmult_le_pos; lra). lra. Qed.
Lemma noise_cons : forall nW n ws, noise_list nW (S n) ws -> exists w ws', ws = w :: ws' /\ (w < nW)%nat /\ noise_list nW n ws'.
Proof. intros nW n [|w ws] [L H]; [discriminate|]. exists w, ws. split; auto. split; [apply H; now left|]. split; [cbn in L; lia|]. intros x I. apply H. now right. Qed.
Lemma noise_cons_i : forall nW n w ws, (w < nW)%nat -> noise_list nW n ws -> noise_list nW (S n) (w :: ws).
Proof. intros nW n w ws Hw [L H]. split; [cbn; lia|]. intros x [<-|I]; auto. Qed.

Section Chance.
Variables nS nA : nat.
Variable dyn : nat -> nat -> nat -> nat * R * bool.
Variable P : list R.
Variable gamma : R.
Variable q : nat -> nat -> R.
Hypothesis HA : (1 <= nA)%nat.
Hypothesis HP : distribution P.
Hypothesis CL : all_closed nS nA (length P) dyn.
Hypothesis Hg : 0 <= gamma <= 1.
Hypothesis BE : mean_bellman nS nA (length P) dyn P gamma (by_max nA) q.
Variable M : R.
Hypothesis HM : forall s a, (s < nS)%nat -> (a < nA)%nat -> Rabs (q s a) <= M.
Notation nW := (length P).
Notation mean := (mean_over P).

Lemma p_pos : forall w, 0 <= nth w P 0.
Proof. clear -HP. intros w. destruct (Nat.lt_ge_cases w nW) as [H|H]; [apply (proj1 HP); now apply nth_In|rewrite nth_overflow by lia; lra]. Qed.
Lemma mean_le : forall n f g, (forall ws, noise_list nW n ws -> f ws <= g ws) -> mean n f <= mean n g.
Proof.
  clear -HP. induction n as [|n IH]; intros f g H; cbn [mean_over]; [apply H; split; auto; intros ? []|]. apply total_le. intros w Hw. apply in_seq in Hw. apply Rmult_le_compat_l; [apply p_pos|]. apply IH. intros ws HW. apply H. apply noise_cons_i; auto. lia.
Qed.
Lemma mean_first : forall n (f : nat -> list nat -> R), mean (S n) (fun ws => match ws with [] => 0 | w :: ws' => f w ws' end) = total (map (fun w => nth w P 0 * mean n (f w)) (seq 0 nW)).
Proof. reflexivity. Qed.

(** What follows one action, if the rest is worth E. *)
Definition one_step (E : nat -> list nat -> nat -> R) (s a : nat) (ws : list nat) : R :=
  match ws with [] => 0 | w :: ws' => reward (dyn w) s a + (if ends (dyn w) s a then 0 else gamma * E w ws' (next (dyn w) s a)) end.
Lemma one_step_mean : forall n E s a, mean (S n) (one_step E s a) = total (map (fun w => nth w P 0 * (reward (dyn w) s a + (if ends (dyn w) s a then 0 else gamma * mean n (fun ws => E w ws (next (dyn w) s a))))) (seq 0 nW)).
Proof.
  intros n E s a. unfold one_step. rewrite mean_first. apply total_ext. intros w Hw. f_equal. rewrite (mean_plus P n (fun _ => reward (dyn w) s a) (fun ws => if ends (dyn w) s a then 0 else gamma * E w ws (next (dyn w) s a))). rewrite mean_const by auto. f_equal. destruct (ends (dyn w) s a); [now apply mean_const|apply mean_scal].
Qed.
Lemma weighted_shift : forall (x : nat -> R) c, total (map (fun w => nth w P 0 * (x w + c)) (seq 0 nW)) = total (map (fun w => nth w P 0 * x w) (seq 0 nW)) + c.
Proof.
  intros x c. rewrite (@total_ext _ _ (fun w => nth w P 0 * x w + c * nth w P 0)) by (intros; ring). rewrite total_plus, total_scal, (@P_total nW P HP eq_refl). ring.
Qed.
Lemma one_step_upper : forall n E s a B, (s < nS)%nat -> (a < nA)%nat -> 0 <= B ->
  (forall w s' m, (w < nW)%nat -> (s' < nS)%nat -> is_maximum nA (q s') m -> mean n (fun ws => E w ws s') <= m + B) -> mean (S n) (one_step E s a) <= q s a + gamma * B.
Proof.
  intros n E s a B Hs Ha HB H. rewrite one_step_mean. destruct (BE Hs Ha) as (x & X & ->). rewrite <- weighted_shift. apply total_le. intros w Hw. apply in_seq in Hw. apply Rmult_le_compat_l; [apply p_pos|].
  destruct (X w ltac:(lia)) as (m & Mx & ->). destruct (ends (dyn w) s a); [assert (0 <= gamma * B) by (apply Rmult_le_pos; lra); lra|]. assert (Z := H w (next (dyn w) s a) m ltac:(lia) (@CL w ltac:(lia) s a Hs Ha) Mx). apply (Rmult_le_compat_l gamma) in Z; lra.
Qed.
Lemma one_step_lower : forall n E s a B, (s < nS)%nat -> (a < nA)%nat -> 0 <= B ->
  (forall w s' m, (w < nW)%nat -> (s' < nS)%nat -> is_maximum nA (q s') m -> m - B <= mean n (fun ws => E w ws s')) -> q s a - gamma * B <= mean (S n) (one_step E s a).
Proof.
  intros n E s a B Hs Ha HB H. rewrite one_step_mean. destruct (BE Hs Ha) as (x & X & ->). unfold Rminus. rewrite <- weighted_shift. apply total_le. intros w Hw. apply in_seq in Hw. apply Rmult_le_compat_l; [apply p_pos|].
  destruct (X w ltac:(lia)) as (m & Mx & ->). destruct (ends (dyn w) s a); [assert (0 <= gamma * B) by (apply Rmult_le_pos; lra); lra|]. assert (Z := H w (next (dyn w) s a) m ltac:(lia) (@CL w ltac:(lia) s a Hs Ha) Mx). apply (Rmult_le_compat_l gamma) in Z; lra.
Qed.
Lemma M_pos : forall s, (s < nS)%nat -> 0 <= M.
Proof. intros s Hs. assert (Z := HM Hs HA). assert (Z' := Rabs_pos (q s 0%nat)). lra. Qed.

(** * No strategy earns more *)
Lemma earns_upper : forall f, plays_legally nA f -> forall T past s m, (s < nS)%nat -> is_maximum nA (q s) m -> mean T (fun ws => earns dyn gamma f past s ws) <= m + gamma ^ T * M.
Proof.
  intros f Hf. induction T as [|T IH]; intros past s m Hs Hm; [cbn; assert (B := @max_in nS nA q M HM s m Hs Hm); lra|].
  set (a := f past s). assert (Ha : (a < nA)%nat) by apply Hf. assert (PM := M_pos Hs). assert (PP : 0 <= gamma ^ T) by (apply pow_le; lra).
  rewrite (@mean_ext P (S T) _ (one_step (fun w ws s' => earns dyn gamma f (past ++ [(s, a, reward (dyn w) s a, false)]) s' ws) s a)).
  - apply Rle_trans with (q s a + gamma * (gamma ^ T * M)).
    + apply one_step_upper; auto. apply Rmult_le_pos; lra.
    + assert (Z := proj2 Hm a Ha). cbn [pow]. lra.
  - intros ws HW. destruct (noise_cons HW) as (w & ws' & -> & Hw & HW'). reflexivity.
Qed.

(** * Agents whose actions lose at most L in the mean *)
Section Loss.
Variable X : Type.
Variable choose : nat -> X -> outcome nat.
Variable fine : X -> Prop.
Variable L : R.
Hypothesis CH : forall s x m, (s < nS)%nat -> fine x -> is_maximum nA (q s) m -> exists a, choose s x = Ok a /\ (a < nA)%nat /\ m - L <= q s a.
Lemma chance_runs : forall xs s ws, (s < nS)%nat -> (forall x, In x xs -> fine x) -> noise_list nW (length xs) ws ->
  exists h, chance_play choose dyn s (combine xs ws) = Ok h /\ chance_episode dyn ws s h /\ (forall s' a r d, In (s', a, r, d) h -> (s' < nS)%nat /\ exists x, In x xs /\ choose s' x = Ok a).
Proof.
  induction xs as [|x xs IH]; intros s ws Hs HX HW.
  - destruct HW as [LW _]. destruct ws; [|discriminate]. exists []. split; [reflexivity|]. split; [constructor|]. intros ? ? ? ? [].
  - destruct (noise_cons HW) as (w & ws' & -> & Hw & HW'). destruct (max_exists HA (q s)) as [m Hm]. destruct (CH Hs (HX x (or_introl eq_refl)) Hm) as (a & E & Ha & _). assert (Hs' := CL Hw Hs Ha).
    cbn [combine chance_play]. rewrite E. cbn [bind]. assert (ED : dyn w s a = (next (dyn w) s a, reward (dyn w) s a, ends (dyn w) s a)) by (unfold next, reward, ends; now destruct (dyn w s a) as [[? ?] ?]). rewrite ED. destruct (ends (dyn w) s a) eqn:D.
    + eexists. split; [reflexivity|]. split; [now constructor|]. intros s0 a0 r0 d0 [I|[]]. injection I as <- <- <- <-. split; auto. exists x. split; [now left|auto].
    + destruct (IH _ ws' Hs' (fun y I => HX y (or_intror I)) HW') as (h & R & EP & AC). rewrite R. cbn [bind]. eexists. split; [reflexivity|]. split; [now constructor|].
      intros s0 a0 r0 d0 [I|I]; [injection I as <- <- <- <-; split; auto; exists x; split; [now left|auto]|]. destruct (AC _ _ _ _ I) as (H1 & y & I2 & C). split; auto. exists y. split; [now right|auto].
Qed.
Definition worth_of (xs : list X) (s : nat) (ws : list nat) : R := value_of gamma (chance_play choose dyn s (combine xs ws)).
Lemma worth_step : forall x xs s a, (s < nS)%nat -> (forall x', In x' (x :: xs) -> fine x') -> choose s x = Ok a -> (a < nA)%nat -> forall ws, noise_list nW (S (length xs)) ws ->
  worth_of (x :: xs) s ws = one_step (fun _ ws' s' => worth_of xs s' ws') s a ws.
Proof.
  intros x xs s a Hs HX E Ha ws HW. destruct (noise_cons HW) as (w & ws' & -> & Hw & HW'). assert (Hs' := CL Hw Hs Ha). unfold worth_of. cbn [combine chance_play one_step]. rewrite E. cbn [bind].
  assert (ED : dyn w s a = (next (dyn w) s a, reward (dyn w) s a, ends (dyn w) s a)) by (unfold next, reward, ends; now destruct (dyn w s a) as [[? ?] ?]). rewrite ED at 1. destruct (ends (dyn w) s a) eqn:D; [cbn; ring|].
  destruct (@chance_runs xs _ ws' Hs' (fun y I => HX y (or_intror I)) HW') as (h & R & _). rewrite R. cbn [bind value_of]. unfold gain. cbn [map discounted fst snd]. reflexivity.
Qed.
Lemma chance_gain_bounds : forall xs s m, (s < nS)%nat -> (forall x, In x xs -> fine x) -> is_maximum nA (q s) m ->
  m - L * geometric gamma (length xs) - gamma ^ length xs * M <= mean (length xs) (worth_of xs s) <= m + gamma ^ length xs * M.
Proof.
  induction xs as [|x xs IH]; intros s m Hs HX Hm; [cbn; assert (B := @max_in nS nA q M HM s m Hs Hm); lra|].
  destruct (CH Hs (HX x (or_introl eq_refl)) Hm) as (a & E & Ha & B). assert (Hle := proj2 Hm a Ha). assert (PM := M_pos Hs). assert (PP : 0 <= gamma ^ length xs) by (apply pow_le; lra). assert (PG := @geometric_pos gamma (length xs) (proj1 Hg)). assert (PL : 0 <= L) by lra.
  assert (Q0 : 0 <= gamma ^ length xs * M) by (apply Rmult_le_pos; lra). assert (Q1 : 0 <= L * geometric gamma (length xs)) by (apply Rmult_le_pos; lra).
  cbn [length]. rewrite (@mean_ext P (S (length xs)) _ _ (@worth_step x xs s a Hs HX E Ha)). cbn [geometric pow]. split.
  - apply Rle_trans with (q s a - gamma * (L * geometric gamma (length xs) + gamma ^ length xs * M)); [lra|]. apply one_step_lower; auto; [lra|]. intros w s' m' Hw Hs' Hm'. destruct (IH s' m' Hs' (fun y I => HX y (or_intror I)) Hm') as [G1 G2]. change (m' - (L * geometric gamma (length xs) + gamma ^ length xs * M) <= mean (length xs) (worth_of xs s')). lra.
  - apply Rle_trans with (q s a + gamma * (gamma ^ length xs * M)); [|lra]. apply one_step_upper; auto. intros w s' m' Hw Hs' Hm'. destruct (IH s' m' Hs' (fun y I => HX y (or_intror I)) Hm') as [G1 G2]. change (mean (length xs) (worth_of xs s') <= m' + gamma ^ length xs * M). lra.
Qed.
End Loss.

(** * Agents that sample *)
Section Draw.
Variable tau : R.
Variable policy : nat -> outcome (list R).
Hypothesis Ht : 0 < tau.
Hypothesis PO : forall s, (s < nS)%nat -> exists z, policy s = Ok z /\ length z = nA.
Notation prob := (prob nA policy).
(** The expected gain for given noises of the environment. *)
Fixpoint exp_ws (ws : list nat) (s : nat) : R :=
  match ws with
  | [] => 0
  | w :: ws' => expectation nA (prob s) (fun a => reward (dyn w) s a + (if ends (dyn w) s a then 0 else gamma * exp_ws ws' (next (dyn w) s a)))
  end.
Notation da := (draw_agent nA tau policy).
Lemma draw_ok : forall us gs s, (s < nS)%nat -> length us = nA -> noise nA gs -> exists a, da s (us, gs) = Ok a /\ (a < nA)%nat.
Proof.
  intros us gs s Hs Lu N. destruct (PO Hs) as (z & E & Lz). destruct (@call_spec nA tau z us gs) as (a & lp & EC & Ha & _); auto. exists a. split; auto. unfold draw_agent. rewrite E. cbn [bind fst snd]. rewrite EC. reflexivity.
Qed.
Lemma draw_runs : forall xs s ws, (s < nS)%nat -> (forall us gs, In (us, gs) xs -> length us = nA /\ noise nA gs) -> noise_list nW (length xs) ws -> exists h, chance_play da dyn s (combine xs ws) = Ok h.
Proof.
  induction xs as [|[us gs] xs IH]; intros s ws Hs HX HW; [eexists; reflexivity|]. destruct (noise_cons HW) as (w & ws' & -> & Hw & HW'). destruct (HX us gs (or_introl eq_refl)) as [Lu N]. destruct (@draw_ok us gs s Hs Lu N) as (a & E & Ha). assert (Hs' := CL Hw Hs Ha).
  cbn [combine chance_play]. rewrite E. cbn [bind]. assert (ED : dyn w s a = (next (dyn w) s a, reward (dyn w) s a, ends (dyn w) s a)) by (unfold next, reward, ends; now destruct (dyn w s a) as [[? ?] ?]). rewrite ED. destruct (ends (dyn w) s a); [eexists; reflexivity|].
  destruct (IH _ ws' Hs' (fun us gs I => HX us gs (or_intror I)) HW') as (h & R). rewrite R. eexists; reflexivity.
Qed.
Lemma per_step_in : forall T vs us, length vs = (T * nA)%nat -> In us (per_step nA T vs) -> length us = nA.
Proof. induction T as [|T IHT]; intros vs us Lv I; [destruct I|]. cbn [per_step] in I. destruct I as [<-|I]; [rewrite firstn_length; cbn in Lv; lia|]. apply (IHT (skipn nA vs)); auto. rewrite skipn_length. cbn in Lv. lia. Qed.
Lemma per_step_length : forall T vs, length (per_step nA T vs) = T.
Proof. induction T as [|T IH]; intros vs; cbn [per_step length]; auto. Qed.
Lemma chance_mean : forall gss ws s, (s < nS)%nat -> (forall gs, In gs gss -> noise nA gs) -> noise_list nW (length gss) ws ->
  mean_units (length gss * nA) (fun us => value_of gamma (chance_play da dyn s (combine (combine (per_step nA (length gss) us) gss) ws))) (exp_ws ws s).
Proof.
  induction gss as [|gs gss IH]; intros ws s Hs N HW; [destruct HW as [LW _]; destruct ws; [reflexivity|discriminate]|]. cbn [length] in HW. destruct (noise_cons HW) as (w & ws' & -> & Hw & HW'). cbn [length Nat.mul exp_ws].
  apply (@PlayProofs2.mean_app nA (length gss * nA) _ (fun us => match da s (us, gs) with Ok a => reward (dyn w) s a + (if ends (dyn w) s a then 0 else gamma * exp_ws ws' (next (dyn w) s a)) | Err _ => 0 end)).
  2: { apply (@step_mean nS nA gamma tau policy HA Hg Ht PO s gs (fun a => reward (dyn w) s a + (if ends (dyn w) s a then 0 else gamma * exp_ws ws' (next (dyn w) s a)))); auto. apply N. now left. }
  intros us [Lu HU]. destruct (@draw_ok us gs s Hs Lu (N gs (or_introl eq_refl))) as (a & E & Ha). rewrite E. assert (Hs' := CL Hw Hs Ha).
  apply (@mean_units_ext _ (fun vs => reward (dyn w) s a + (if ends (dyn w) s a then 0 else gamma) * value_of gamma (chance_play da dyn (next (dyn w) s a) (combine (combine (per_step nA (length gss) vs) gss) ws')))).
  - intros vs Lv HV. cbn [per_step]. assert (F1 : firstn nA (us ++ vs) = us) by (rewrite firstn_app, <- Lu, Nat.sub_diag, firstn_all, firstn_O; apply app_nil_r). assert (F2 : skipn nA (us ++ vs) = vs) by (rewrite skipn_app, <- Lu, Nat.sub_diag, skipn_all; reflexivity). rewrite F1, F2.
    cbn [combine chance_play]. rewrite E. cbn [bind]. assert (ED : dyn w s a = (next (dyn w) s a, reward (dyn w) s a, ends (dyn w) s a)) by (unfold next, reward, ends; now destruct (dyn w s a) as [[? ?] ?]). rewrite ED.
    destruct (ends (dyn w) s a) eqn:D; [cbn; ring|].
    destruct (@draw_runs (combine (per_step nA (length gss) vs) gss) _ ws' Hs') as (h & R).
    + intros us' gs' I. split; [apply in_combine_l in I; now apply (@per_step_in (length gss) vs)|apply in_combine_r in I; apply N; now right].
    + rewrite combine_length, per_step_length, Nat.min_id. exact HW'.
    + rewrite R. cbn [bind value_of]. unfold gain. cbn [map discounted fst snd]. reflexivity.
  - replace (if ends (dyn w) s a then 0 else gamma * exp_ws ws' (next (dyn w) s a)) with ((if ends (dyn w) s a then 0 else gamma) * exp_ws ws' (next (dyn w) s a)) by (destruct (ends (dyn w) s a); ring).
    apply mean_units_lin; [apply mean_units_const|]. apply IH; auto. intros gs' I. apply N. now right.
Qed.
Lemma exp_mean : forall T s, mean (S T) (fun ws => exp_ws ws s) = expectation nA (prob s) (fun a => mean (S T) (one_step (fun _ ws' s' => exp_ws ws' s') s a)).
Proof.
  intros T s. unfold expectation. rewrite (@mean_ext P (S T) _ (fun ws => total (map (fun a => prob s a * one_step (fun _ ws' s' => exp_ws ws' s') s a ws) (seq 0 nA)))).
  - rewrite (@mean_total P HP _ (seq 0 nA) (S T) (fun a ws => prob s a * one_step (fun _ ws' s' => exp_ws ws' s') s a ws)). apply total_ext. intros a _. apply mean_scal.
  - intros ws HW. destruct (noise_cons HW) as (w & ws' & -> & _). reflexivity.
Qed.
Variable L : R.
Hypothesis LO : forall s m, (s < nS)%nat -> is_maximum nA (q s) m -> m - L <= expectation nA (prob s) (q s).
Lemma exp_bounds : forall T s m, (s < nS)%nat -> is_maximum nA (q s) m -> m - L * geometric gamma T - gamma ^ T * M <= mean T (fun ws => exp_ws ws s) <= m + gamma ^ T * M.
Proof.
  induction T as [|T IH]; intros s m Hs Hm; [cbn; assert (B := @max_in nS nA q M HM s m Hs Hm); lra|]. rewrite exp_mean. cbn [geometric pow]. assert (PM := M_pos Hs).
  assert (SH : forall h c, expectation nA (prob s) (fun a => h a + c) = expectation nA (prob s) h + c) by (intros; now apply (@expectation_shift nS nA policy HA PO)).
  assert (EL : forall h h', (forall a, (a < nA)%nat -> h a <= h' a) -> expectation nA (prob s) h <= expectation nA (prob s) h') by (intros; now apply (@expectation_le nS nA policy HA PO)).
  assert (LE : expectation nA (prob s) (q s) <= m). { apply Rle_trans with (expectation nA (prob s) (fun _ => 0 + m)); [apply EL; intros a Ha; rewrite Rplus_0_l; now apply (proj2 Hm)|]. rewrite SH. unfold expectation. right. rewrite (@total_ext _ _ (fun _ => 0)) by (intros; ring). rewrite total_const. ring. }
  assert (LB := LO Hs Hm). assert (PL : 0 <= L) by lra. assert (PG := @geometric_pos gamma T (proj1 Hg)). assert (PP : 0 <= gamma ^ T) by (apply pow_le; lra).
  assert (Q0 : 0 <= gamma ^ T * M) by (apply Rmult_le_pos; lra). assert (Q1 : 0 <= L * geometric gamma T) by (apply Rmult_le_pos; lra).
  split.
  - apply Rle_trans with (expectation nA (prob s) (fun a => q s a + - (gamma * (L * geometric gamma T + gamma ^ T * M)))); [rewrite SH; lra|]. apply EL. intros a Ha. apply (@one_step_lower T (fun _ ws' s' => exp_ws ws' s') s a); auto; [lra|]. intros w s' m' Hw Hs' Hm'. destruct (IH s' m' Hs' Hm'). lra.
  - apply Rle_trans with (expectation nA (prob s) (fun a => q s a + gamma * (gamma ^ T * M))); [|rewrite SH; lra]. apply EL. intros a Ha. apply one_step_upper; auto. intros w s' m' Hw Hs' Hm'. destruct (IH s' m' Hs' Hm'). lra.
Qed.
End Draw.
End Chance.
