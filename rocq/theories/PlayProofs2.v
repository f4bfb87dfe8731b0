From Coq Require Import List Lia Bool Arith Reals Lra.
From Verif Require Import PyCommon CommonProofs UtilsModel UtilsSpec UtilsProofs2 UtilsProofs3 DistModel DistSpec DistProofs DistProofs2 LossModel LossSpec LossProofs QModel TDModel TDSpec TDProofs PolicyModel PolicySpec PolicyProofs PolicyProofs2 PolicyProofs3 PolicyProofs4 PolicyProofs5 PolicyProps.
From Verif Require Import MeanSpec MeanProofs GumbelProps LearnSpec LearnProofs5 PlayModel PlaySpec PlayProofs.
Import ListNotations.
Set Implicit Arguments.
Local Open Scope R_scope.

(** * Expected values over several draws *)
Definition units (n : nat) (us : list R) : Prop := length us = n /\ forall u, In u us -> 0 < u < 1.
Lemma units_cons : forall n u us, 0 < u < 1 -> units n us -> units (S n) (u :: us).
Proof. intros n u us Hu [L H]. split; [cbn; lia|]. intros v [<-|I]; auto. Qed.
Lemma mean_app : forall n k F G v, (forall us, units n us -> mean_units k (fun vs => F (us ++ vs)) (G us)) -> mean_units n G v -> mean_units (n + k) F v.
Proof.
  induction n as [|n IH]; intros k F G v H HG; cbn [mean_units plus] in *.
  - rewrite <- HG. apply (H []). split; [reflexivity|intros u []].
  - destruct HG as (J & HJ & I). exists J. split; auto. intros u Hu. apply (IH k (fun us => F (u :: us)) (fun us => G (u :: us))); [|now apply HJ]. intros us HU. apply (H (u :: us)). now apply units_cons.
Qed.
Lemma mean_units_const : forall n c, mean_units n (fun _ => c) c.
Proof. induction n as [|n IH]; intros c; cbn [mean_units]; auto. exists (fun _ => c). split; [intros; apply IH|]. assert (Z := integral_const c 0 1). replace (c * (1 - 0)) with c in Z by ring. exact Z. Qed.
Lemma mean_units_lin : forall n F G l m k, mean_units n F m -> mean_units n G k -> mean_units n (fun us => F us + l * G us) (m + l * k).
Proof.
  induction n as [|n IH]; intros F G l m k HF HG; cbn [mean_units] in *; [now rewrite HF, HG|]. destruct HF as (A & HA & IA). destruct HG as (B & HB & IB). exists (fun u => A u + l * B u). split.
  - intros u Hu. apply (IH (fun us => F (u :: us)) (fun us => G (u :: us))); auto.
  - now apply integral_lin.
Qed.
Lemma mean_units_sum : forall n (l : list nat) (F : nat -> list R -> R) p w, (forall a, In a l -> mean_units n (F a) (p a)) ->
  mean_units n (fun us => total (map (fun a => w a * F a us) l)) (total (map (fun a => p a * w a) l)).
Proof.
  intros n l F p w. unfold total. induction l as [|a l IH]; intros H; cbn [map fold_right]; [apply mean_units_const|].
  apply (@mean_units_ext n (fun us => fold_right Rplus 0 (map (fun a => w a * F a us) l) + w a * F a us)); [intros; ring|]. rewrite (Rplus_comm (p a * w a)), (Rmult_comm (p a)).
  apply (@mean_units_lin n (fun us => fold_right Rplus 0 (map (fun a => w a * F a us) l)) (F a)); [apply IH; intros; apply H; now right|apply H; now left].
Qed.
Lemma pick : forall n (w : nat -> R) a, (a < n)%nat -> total (map (fun c => w c * (if Nat.eqb a c then 1 else 0)) (seq 0 n)) = w a.
Proof.
  intros n w a Ha. assert (X : forall k m, total (map (fun c => w c * (if Nat.eqb a c then 1 else 0)) (seq k m)) = if Nat.leb k a && Nat.ltb a (k + m) then w a else 0).
  { intros k m. revert k. induction m as [|m IH]; intros k; cbn [seq map total fold_right].
    - destruct (Nat.leb k a) eqn:E1; destruct (Nat.ltb a (k + 0)) eqn:E2; cbn; auto. apply Nat.leb_le in E1. apply Nat.ltb_lt in E2. lia.
    - unfold total in IH |- *. cbn [map fold_right]. rewrite IH. destruct (Nat.eqb_spec a k) as [<-|NE].
      + replace (Nat.leb (S a) a) with false by (symmetry; apply Nat.leb_gt; lia). replace (Nat.leb a a) with true by (symmetry; apply Nat.leb_le; lia). replace (Nat.ltb a (a + S m)) with true by (symmetry; apply Nat.ltb_lt; lia). cbn. ring.
      + replace (k + S m)%nat with (S k + m)%nat by lia. destruct (Nat.leb_spec (S k) a); destruct (Nat.leb_spec k a); try lia; cbn [andb]; ring. }
  rewrite X. replace (Nat.leb 0 a) with true by (symmetry; apply Nat.leb_le; lia). replace (Nat.ltb a (0 + n)) with true by (symmetry; apply Nat.ltb_lt; lia). reflexivity.
Qed.

Lemma boltzmann_pos : forall n z a, (1 <= n)%nat -> 0 <= boltzmann n z a.
Proof.
  intros n z a Hn. unfold boltzmann. apply Rlt_le, Rdiv_lt_0_compat; [apply exp_pos|]. destruct n as [|n]; [lia|]. unfold total. cbn [seq map fold_right].
  assert (X : forall l, 0 <= fold_right Rplus 0 (map (fun c => exp (nth c z 0)) l)) by (induction l as [|x l IH]; cbn; [lra|assert (P := exp_pos (nth x z 0)); lra]). assert (P := exp_pos (nth 0 z 0)). specialize (X (seq 1 n)). lra.
Qed.

(** * The expected gain of an agent that samples *)
Section Draw.
Variables nS nA : nat.
Variable dyn : nat -> nat -> nat * R * bool.
Variable gamma tau : R.
Variable policy : nat -> outcome (list R).
Hypothesis HA : (1 <= nA)%nat.
Hypothesis CL : closed nS nA dyn.
Hypothesis Hg : 0 <= gamma <= 1.
Hypothesis Ht : 0 < tau.
Hypothesis PO : forall s, (s < nS)%nat -> exists z, policy s = Ok z /\ length z = nA.
Definition prob (s a : nat) : R := match policy s with Ok z => boltzmann nA z a | Err _ => 0 end.
Fixpoint expected (T : nat) (s : nat) : R :=
  match T with
  | O => 0
  | S T' => expectation nA (prob s) (fun a => reward dyn s a + (if ends dyn s a then 0 else gamma * expected T' (next dyn s a)))
  end.
Definition value_of (o : outcome (list (nat * nat * R * bool))) : R := match o with Ok h => gain gamma h | Err _ => 0 end.

Lemma step_mean : forall s gs w, (s < nS)%nat -> noise nA gs -> mean_units nA (fun us => match draw_agent nA tau policy s (us, gs) with Ok a => w a | Err _ => 0 end) (expectation nA (prob s) w).
Proof.
  intros s gs w Hs N. destruct (PO Hs) as (z & P & Lz). unfold expectation, prob. rewrite P.
  apply (@mean_units_ext nA (fun us => total (map (fun c => w c * (match draw_agent nA tau policy s (us, gs) with Ok a => if Nat.eqb a c then 1 else 0 | Err _ => 0 end)) (seq 0 nA)))).
  - intros us Lu HU. destruct (@call_spec nA tau z us gs) as (a & lp & E & Ha & _); auto. unfold draw_agent. rewrite P. cbn [bind fst snd]. rewrite E. cbn [bind fst]. now apply pick.
  - apply (@mean_units_sum nA (seq 0 nA) (fun c us => match draw_agent nA tau policy s (us, gs) with Ok a => if Nat.eqb a c then 1 else 0 | Err _ => 0 end)). intros a I. apply in_seq in I.
    apply (C109_policy_call nA tau z gs a); auto; [lia|]. intros us Lu HU. destruct (@call_spec nA tau z us gs) as (b & lp & E & Hb & _); auto. unfold draw_agent. rewrite P. cbn [bind fst snd]. rewrite E. cbn [bind fst].
    destruct (Nat.eqb_spec b a) as [->|NE]; [now left|right; split; auto; congruence].
Qed.

Lemma play_mean : forall gss s, (s < nS)%nat -> (forall gs, In gs gss -> noise nA gs) ->
  mean_units (length gss * nA) (fun us => value_of (play (draw_agent nA tau policy) dyn s (combine (per_step nA (length gss) us) gss))) (expected (length gss) s).
Proof.
  induction gss as [|gs gss IH]; intros s Hs N; [reflexivity|]. cbn [length Nat.mul expected].
  apply (@mean_app nA (length gss * nA) _ (fun us => match draw_agent nA tau policy s (us, gs) with Ok a => reward dyn s a + (if ends dyn s a then 0 else gamma * expected (length gss) (next dyn s a)) | Err _ => 0 end)).
  2: { apply (@step_mean s gs (fun a => reward dyn s a + (if ends dyn s a then 0 else gamma * expected (length gss) (next dyn s a)))); auto. apply N. now left. }
  intros us [Lu HU]. destruct (PO Hs) as (z & P & Lz). destruct (@call_spec nA tau z us gs) as (a & lp & E & Ha & _); auto; [apply N; now left|].
  assert (DA : draw_agent nA tau policy s (us, gs) = Ok a). { unfold draw_agent. rewrite P. cbn [bind fst snd]. rewrite E. reflexivity. }
  rewrite DA. assert (Hs' := CL Hs Ha).
  assert (PL : forall vs, value_of (play (draw_agent nA tau policy) dyn s (combine (per_step nA (S (length gss)) (us ++ vs)) (gs :: gss))) =
    reward dyn s a + (if ends dyn s a then 0 else gamma * value_of (play (draw_agent nA tau policy) dyn (next dyn s a) (combine (per_step nA (length gss) vs) gss))) \/ exists e, play (draw_agent nA tau policy) dyn (next dyn s a) (combine (per_step nA (length gss) vs) gss) = Err e).
  { intros vs. cbn [per_step combine]. assert (F1 : firstn nA (us ++ vs) = us) by (rewrite firstn_app, <- Lu, Nat.sub_diag, firstn_all, firstn_O; apply app_nil_r). assert (F2 : skipn nA (us ++ vs) = vs) by (rewrite skipn_app, <- Lu, Nat.sub_diag, skipn_all; reflexivity). rewrite F1, F2. cbn [play]. rewrite DA. cbn [bind]. unfold reward, ends, next. destruct (dyn s a) as [[s' r] d]. cbn [fst snd]. destruct d.
    - left. cbn. ring.
    - destruct (play (draw_agent nA tau policy) dyn s' (combine (per_step nA (length gss) vs) gss)) as [h|e] eqn:EH; [left|right; eauto]. cbn [bind value_of]. unfold gain. cbn [map discounted fst snd]. reflexivity. }
  assert (OKP : forall xs s, (s < nS)%nat -> (forall us gs, In (us, gs) xs -> length us = nA /\ noise nA gs) -> exists h, play (draw_agent nA tau policy) dyn s xs = Ok h).
  { clear -HA CL Ht PO. induction xs as [|[us gs] xs IH]; intros s Hs HX; [eexists; reflexivity|]. destruct (HX us gs (or_introl eq_refl)) as [Lu N]. destruct (PO Hs) as (z & P & Lz). destruct (@call_spec nA tau z us gs) as (a & lp & E & Ha & _); auto.
    cbn [play]. unfold draw_agent at 1. rewrite P. cbn [bind fst snd]. rewrite E. cbn [bind fst]. assert (Z := CL Hs Ha). unfold next in Z. destruct (dyn s a) as [[s' r] d]. cbn [fst snd] in Z. destruct d; [eexists; reflexivity|].
    destruct (IH s' Z) as [h H]; [intros; apply HX; now right|]. rewrite H. eexists; reflexivity. }
  apply (@mean_units_ext _ (fun vs => reward dyn s a + (if ends dyn s a then 0 else gamma) * value_of (play (draw_agent nA tau policy) dyn (next dyn s a) (combine (per_step nA (length gss) vs) gss)))).
  - intros vs Lv HV. destruct (PL vs) as [->|(e & EH)].
    + destruct (ends dyn s a); ring.
    + exfalso. destruct (OKP (combine (per_step nA (length gss) vs) gss) (next dyn s a) Hs') as [h H]; [|congruence]. intros us' gs' I. split; [|apply N; right; exact (in_combine_r _ _ _ _ I)].
      apply in_combine_l in I. clear -I Lv. revert vs Lv I. induction (length gss) as [|T IHT]; intros vs Lv I; [destruct I|]. cbn [per_step] in I. destruct I as [<-|I]; [rewrite firstn_length; cbn in Lv; lia|]. apply (IHT (skipn nA vs)); auto. rewrite skipn_length. cbn in Lv. lia.
  - replace (if ends dyn s a then 0 else gamma * expected (length gss) (next dyn s a)) with ((if ends dyn s a then 0 else gamma) * expected (length gss) (next dyn s a)) by (destruct (ends dyn s a); ring).
    apply mean_units_lin; [apply mean_units_const|]. apply IH; auto. intros gs' I. apply N. now right.
Qed.

Section Bound.
Variable q : nat -> nat -> R.
Hypothesis BE : bellman nS nA dyn gamma (by_max nA) q.
Variables M L : R.
Hypothesis HM : forall s a, (s < nS)%nat -> (a < nA)%nat -> Rabs (q s a) <= M.
Hypothesis LO : forall s m, (s < nS)%nat -> is_maximum nA (q s) m -> m - L <= expectation nA (prob s) (q s).
Lemma prob_pos : forall s a, (s < nS)%nat -> 0 <= prob s a.
Proof. intros s a Hs. unfold prob. destruct (PO Hs) as (z & -> & Lz). now apply boltzmann_pos. Qed.
Lemma prob_total : forall s, (s < nS)%nat -> total (map (prob s) (seq 0 nA)) = 1.
Proof. intros s Hs. unfold prob. destruct (PO Hs) as (z & -> & Lz). now apply C109_total. Qed.
Lemma expectation_le : forall s h h', (s < nS)%nat -> (forall a, (a < nA)%nat -> h a <= h' a) -> expectation nA (prob s) h <= expectation nA (prob s) h'.
Proof.
  intros s h h' Hs H. unfold expectation, total. assert (X : forall l, (forall a, In a l -> (a < nA)%nat) -> fold_right Rplus 0 (map (fun a => prob s a * h a) l) <= fold_right Rplus 0 (map (fun a => prob s a * h' a) l)).
  { induction l as [|a l IH]; intros I; cbn; [lra|]. assert (Z := IH (fun x J => I x (or_intror J))). assert (Y := H a (I a (or_introl eq_refl))). apply (Rmult_le_compat_l (prob s a)) in Y; [|now apply prob_pos]. lra. }
  apply X. intros a I. apply in_seq in I. lia.
Qed.
Lemma expectation_shift : forall s h c, (s < nS)%nat -> expectation nA (prob s) (fun a => h a + c) = expectation nA (prob s) h + c.
Proof.
  intros s h c Hs. assert (X : forall l, total (map (fun a => prob s a * (h a + c)) l) = total (map (fun a => prob s a * h a) l) + c * total (map (prob s) l)).
  { unfold total. induction l as [|a l IH]; cbn; [ring|]. rewrite IH. ring. }
  unfold expectation. rewrite X, prob_total by auto. ring.
Qed.
Lemma expected_bounds : forall T s m, (s < nS)%nat -> is_maximum nA (q s) m -> m - L * geometric gamma T - gamma ^ T * M <= expected T s <= m + gamma ^ T * M.
Proof.
  induction T as [|T IH]; intros s m Hs Hm; [cbn; assert (B := @max_in nS nA q M HM s m Hs Hm); lra|]. cbn [expected geometric pow].
  assert (PM : 0 <= M). { destruct Hm as [(a & Ha & _) _]. assert (Z := HM Hs Ha). assert (Z' := Rabs_pos (q s a)). lra. }
  assert (LE : expectation nA (prob s) (q s) <= m). { apply Rle_trans with (expectation nA (prob s) (fun _ => 0 + m)); [apply expectation_le; auto; intros a Ha; rewrite Rplus_0_l; now apply (proj2 Hm)|]. rewrite expectation_shift by auto. unfold expectation. right. unfold total. clear. induction (seq 0 nA) as [|x l IH]; cbn; lra. }
  assert (LB := LO Hs Hm). assert (PL : 0 <= L) by lra.
  assert (PG : 0 <= geometric gamma T). { clear -Hg. induction T as [|n IH]; cbn [geometric]; [lra|]. assert (0 <= gamma * geometric gamma n) by (apply Rmult_le_pos; lra). lra. }
  assert (PP : 0 <= gamma ^ T) by (apply pow_le; lra). assert (Q1 : 0 <= gamma * gamma ^ T * M) by (apply Rmult_le_pos; [apply Rmult_le_pos; lra|lra]). assert (Q2 : 0 <= L * (gamma * geometric gamma T)) by (apply Rmult_le_pos; [lra|apply Rmult_le_pos; lra]).
  assert (W : forall a, (a < nA)%nat -> q s a + - (gamma * (L * geometric gamma T + gamma ^ T * M)) <= reward dyn s a + (if ends dyn s a then 0 else gamma * expected T (next dyn s a)) <= q s a + gamma * gamma ^ T * M).
  { intros a Ha. destruct (BE Hs Ha) as (m' & Hm' & ->). destruct (ends dyn s a); [lra|]. destruct (IH _ _ (CL Hs Ha) Hm') as [G1 G2]. apply (Rmult_le_compat_l gamma) in G1; [|lra]. apply (Rmult_le_compat_l gamma) in G2; [|lra]. lra. }
  split.
  - apply Rle_trans with (expectation nA (prob s) (fun a => q s a + - (gamma * (L * geometric gamma T + gamma ^ T * M)))); [rewrite expectation_shift by auto; lra|]. apply expectation_le; auto. intros a Ha. now apply W.
  - apply Rle_trans with (expectation nA (prob s) (fun a => q s a + gamma * gamma ^ T * M)); [|rewrite expectation_shift by auto; lra]. apply expectation_le; auto. intros a Ha. now apply W.
Qed.
End Bound.
End Draw.
