From Coq Require Import List Lia Bool Arith Reals Lra.
From Verif Require Import PyCommon CommonProofs UtilsModel UtilsSpec UtilsProofs2 UtilsProofs3 WrappersProofs DistModel DistSpec DistProofs DistProofs2 DistProofs3 LossModel LossSpec LossProofs QModel QProofs QProps TDModel TDSpec TDProofs TDProofs2 TDProofs3 TDProofs4 CoreModel CoreSpec CoreProofs LearnModel LearnSpec LearnProofs LearnProofs2 LearnProofs3 LearnProofs4 LearnProofs5 LearnProofs6 LearnProofs7 NoiseSpec NoiseProofs NoiseProofs2 NoiseProofs3 DblModel DblSpec DblProofs DblProofs2 DblProofs3 DblProofs4.
Import ListNotations.
Set Implicit Arguments.
Local Open Scope R_scope.

(** * Two states: action 0 leads to the other state for free, action 1 stays and costs 1 *)
Definition swap (s a : nat) : nat * R * bool := match a with O => ((1 - s)%nat, 0, false) | _ => (s, -1, false) end.
Definition row_of (gamma : R) (s a : nat) : fbatch nat := mk_fb [s] [one_hot 2 a] [1] (mk_tb [reward swap s a] [gamma] [next swap s a] [one_hot 2 0]).
Lemma swap_closed : closed 2 2 swap.
Proof. intros s a Hs Ha. unfold next. destruct s as [|[|s]]; [| |lia]; (destruct a as [|[|a]]; [| |lia]); cbn; lia. Qed.
Lemma swap_ends : forall s a, ends swap s a = false.
Proof. intros s [|a]; reflexivity. Qed.
Definition qstar (s a : nat) : R := match a with O => 0 | _ => -1 end.
Lemma swap_bellman : forall gamma, bellman 2 2 swap gamma (by_max 2) qstar.
Proof.
  intros gamma s a Hs Ha. exists 0. rewrite swap_ends. split; [split|].
  - exists 0%nat. split; [lia|reflexivity].
  - intros [|c] _; cbn; lra.
  - destruct a as [|a]; cbn; lra.
Qed.
Section Rows.
Variable gamma : R.
Lemma row_genuine : forall s a, (s < 2)%nat -> (a < 2)%nat -> genuine 2 2 swap gamma [(s, a)] (row_of gamma s a).
Proof.
  intros s a Hs Ha. split; [discriminate|]. do 6 (split; [reflexivity|]). intros [|i] s0 a0 s' E N; [|destruct i; discriminate]. injection E as <- <-. injection N as <-. rewrite swap_ends. repeat split; auto. now apply swap_closed.
Qed.
Lemma row_fit : forall s a, weights_fit 1 1 (row_of gamma s a).
Proof. intros s a w [<-|[]]. assert (E : Rmax (1/10) (Rmin 1 10) = 1) by (unfold Rmin; destruct (Rle_dec 1 10); [unfold Rmax; destruct (Rle_dec (1/10) 1); lra|lra]). rewrite E. lra. Qed.
Lemma row_ok : forall s a, (s < 2)%nat -> (a < 2)%nat -> op_ok 2 2 swap gamma 1 1 1 (YUpdate (row_of gamma s a)).
Proof. intros s a Hs Ha. exists [(s, a)]. split; [now apply row_genuine|]. split; [apply row_fit|]. cbn. lia. Qed.
Lemma row_visits : forall s a, visits 2 (YUpdate (row_of gamma s a)) s a.
Proof. intros s a. exists 0%nat. split; reflexivity. Qed.
Notation net := (table1 2).
Notation T := (table1_tabular 2 2).
Notation tq := (tq 2).
Variable sub : nat -> nat -> bool.
(** The table t holds the values f. *)
Definition like (t : list R) (f : nat -> nat -> R) : Prop := length t = 4%nat /\ forall s a, (s < 2)%nat -> (a < 2)%nat -> tq t s a = f s a.
Definition st (y : sys) (f g : nat -> nat -> R) : Prop := sgd_learner 1 sub y /\ y_targ y <> None /\ exists th targ, q_params y = wrap th /\ targ_params y = wrap targ /\ like th f /\ like targ g.
Lemma st_ext : forall y f g f' g', (forall s a, (s < 2)%nat -> (a < 2)%nat -> f s a = f' s a) -> (forall s a, (s < 2)%nat -> (a < 2)%nat -> g s a = g' s a) -> st y f g -> st y f' g'.
Proof. intros y f g f' g' E1 E2 (A & B & th & targ & C & D & [L1 H1] & [L2 H2]). split; auto. split; auto. exists th, targ. do 2 (split; auto). split; (split; [auto|]); intros s a Hs Ha; [rewrite <- E1 by auto|rewrite <- E2 by auto]; auto. Qed.
Definition upd (f : nat -> nat -> R) (s a : nat) (x : R) (s' a' : nat) : R := if Nat.eqb s' s && Nat.eqb a' a then x else f s' a'.
Lemma exact_update : forall target grads y f g s a x, (s < 2)%nat -> (a < 2)%nat -> st y f g ->
  (forall th targ, like th f -> like targ g -> gradient (fun p => loss_value (q_loss (Some 2%nat) net target mse th targ (row_of gamma s a) p)) th (grads th targ (row_of gamma s a))) ->
  (forall th targ, like th f -> like targ g -> target th targ (fb_t (row_of gamma s a)) = Ok [x]) ->
  exists y', ystep 2 net target mse grads sub y (YUpdate (row_of gamma s a)) = (y', Ok tt) /\ st y' (upd f s a x) g.
Proof.
  intros target grads y f g s a x Hs Ha (SG & NT & th & targ & Q & P & L1 & L2) GR TG. specialize (GR _ _ L1 L2). specialize (TG _ _ L1 L2).
  assert (PL : pulls mse (Rabs (x - tq th s a)) 1) by (left; split; reflexivity).
  destruct (@mix_update 2 2 ltac:(lia) net T swap gamma target mse grads sub _ 1 1 1 1 PL Rlt_0_1 Rlt_0_1 y th targ [(s, a)] (row_of gamma s a) [x] (fun s' a' => if Nat.eqb s' s && Nat.eqb a' a then x else tq th s' a') (fun s' a' => if Nat.eqb s' s && Nat.eqb a' a then x else tq th s' a') SG Q (proj1 L1) P (row_genuine Hs Ha) (@row_fit s a)) as (y' & th' & Y1 & Y2 & Y3 & Y4 & Y5 & C); auto.
  { intros [|i] s0 a0 E; [|destruct i; discriminate]. injection E as <- <-. rewrite !Nat.eqb_refl. cbn [andb nth]. lra. }
  exists y'. split; auto. split; auto. split; [congruence|]. exists th', targ. split; auto. split; [unfold targ_params in *; rewrite Y3; destruct (y_targ y); congruence|]. split; auto. split; auto.
  intros s' a' Hs' Ha'. destruct (C s' a' Hs' Ha') as (c & C1 & C2 & C3). unfold upd. destruct (Nat.eqb s' s && Nat.eqb a' a) eqn:E.
  - apply andb_prop in E. destruct E as [E1 E2]. apply Nat.eqb_eq in E1, E2. subst. specialize (C2 (row_visits s a)). unfold beta in C2. cbn [INR] in C2. replace (1 * 1 * 1 / 1) with 1 in C2 by field. assert (c = 1) by lra. subst c. lra.
  - rewrite <- (proj2 L1 s' a') by auto. lra.
Qed.
Lemma exact_sync : forall target grads y f g, st y f g -> exists y', ystep 2 net target mse grads sub y (YSync 1) = (y', Ok tt) /\ st y' f f.
Proof.
  intros target grads y f g (SG & NT & th & targ & Q & P & [L1 H1] & [L2 H2]). destruct (y_targ y) as [t|] eqn:E; [|congruence].
  destruct (@ystep_sync 2 net target mse grads sub 1 y 1 th targ t SG E Q P) as (y' & t' & Y1 & Y2 & Y3 & Y4 & Y5); [congruence|]. exists y'. split; auto. split; auto. split; [congruence|]. eexists th, _. split; [exact Y4|]. split; [exact Y5|]. split; [now split|]. split; [now rewrite map_length, seq_length|].
  intros s a Hs Ha. rewrite <- H1 by auto. assert (XX := index_lt Hs Ha). unfold LearnProofs.tq. rewrite (@nth_map_any _ _ _ (seq 0 (length targ)) _ 0 0%nat) by (rewrite seq_length; lia). rewrite seq_nth by lia. cbn [Nat.add]. lra.
Qed.

(** * DoubleQLearning *)
Definition gd := analytic 2 2 (fun y h => h - y) (target_double 2 net).
Notation ystep_d := (ystep 2 net (target_double 2 net) mse gd sub).
Notation yrun_d := (yrun 2 net (target_double 2 net) mse gd sub).
Lemma gd_ok : differentiates 2 2 swap gamma net (target_double 2 net) mse gd.
Proof. apply (@analytic_double 2 2 net mse1 (fun y h => h - y) swap gamma); [lia|apply T|exact mse_deriv]. Qed.
Lemma double_update : forall y f g s a c, (s < 2)%nat -> (a < 2)%nat -> (c < 2)%nat -> st y f g -> (forall d, (d < 2)%nat -> d <> c -> g (next swap s a) d < g (next swap s a) c) ->
  exists y', ystep_d y (YUpdate (row_of gamma s a)) = (y', Ok tt) /\ st y' (upd f s a (reward swap s a + gamma * f (next swap s a) c)) g.
Proof.
  intros y f g s a c Hs Ha Hc S U. apply exact_update; auto.
  - intros th targ L1 L2. apply (@gd_ok th targ [(s, a)]); [apply L1|apply L2|now apply row_genuine].
  - intros th targ [L1 H1] [L2 H2]. destruct (genuine_states (le_S 1 1 (le_n 1)) (row_genuine Hs Ha)) as [W ST]. destruct (@double_boot 2 2 ltac:(lia) net T th targ (fb_t (row_of gamma s a)) L1 L2 W ST) as (G & TG & BG). rewrite TG. f_equal.
    destruct BG as [LG RG]. destruct (RG 0%nat (next swap s a) eq_refl) as (x & X1 & X2). cbn [fb_t row_of tb_Snext length] in LG. destruct G as [|G0 [|G1 G]]; cbn in LG; try lia. f_equal. cbn [nth fb_t row_of tb_Rn tb_In] in X2. rewrite X2. do 2 f_equal. rewrite <- H1 by (auto; now apply swap_closed).
    assert (Hn := swap_closed Hs Ha). eapply greedy_avg_unique; [exact X1|]. apply avg_of_unique. split; auto. intros d Hd N. rewrite !H2 by auto. now apply U.
Qed.
(** Values a, b in state s and c, d in the other state. *)
Definition mk (s : nat) (a b c d : R) (s' a' : nat) : R := if Nat.eqb s' s then (match a' with O => a | _ => b end) else (match a' with O => c | _ => d end).
Fixpoint cost (n : nat) : R := match n with O => 1 | S k => 1 + gamma * cost k end.
Lemma cost_ge : 0 <= gamma -> forall n, 1 <= cost n.
Proof. intros Hg n. induction n; cbn; [lra|]. assert (0 <= gamma * cost n) by (apply Rmult_le_pos; lra). lra. Qed.
Lemma cost_big : 1/2 < gamma < 1 -> exists n, (1 <= n)%nat /\ 1 < gamma * cost n.
Proof.
  intros Hg. assert (F : forall n, (1 - gamma) * cost n = 1 - gamma ^ S n) by (induction n as [|n IH]; [cbn; lra|]; cbn [cost]; replace ((1 - gamma) * (1 + gamma * cost n)) with ((1 - gamma) + gamma * ((1 - gamma) * cost n)) by ring; rewrite IH; cbn; ring).
  destruct (pow_lt_1_zero gamma) with (y := (2 * gamma - 1) / gamma) as [N HN]; [rewrite Rabs_right; lra|apply Rdiv_lt_0_compat; lra|].
  exists (S N). split; [lia|]. specialize (HN (S (S N)) ltac:(lia)). specialize (F (S N)). rewrite Rabs_right in HN by (apply Rle_ge, pow_le; lra).
  assert (H : gamma * gamma ^ S (S N) < 2 * gamma - 1). { apply (Rmult_lt_compat_l gamma) in HN; [|lra]. replace (gamma * ((2 * gamma - 1) / gamma)) with (2 * gamma - 1) in HN by (field; lra). exact HN. }
  apply (Rmult_lt_reg_l (1 - gamma)); [lra|]. replace ((1 - gamma) * (gamma * cost (S N))) with (gamma * ((1 - gamma) * cost (S N))) by ring. rewrite F. lra.
Qed.
Definition round_d (n s : nat) : list yop :=
  (repeat (YUpdate (row_of gamma s 1)) n ++ [YUpdate (row_of gamma (1 - s) 1); YUpdate (row_of gamma s 0); YUpdate (row_of gamma (1 - s) 0)]) ++ YSync 1 :: [YUpdate (row_of gamma s 1); YSync 1].
Ltac two := match goal with |- forall s a, (s < 2)%nat -> (a < 2)%nat -> _ => let s := fresh "s" in let a := fresh "a" in intros s a ? ?; destruct s as [|[|s]]; [| |lia]; (destruct a as [|[|a]]; [| |lia]) end.
Ltac both s := (destruct s as [|[|s]]; [| |lia]).
Lemma round_d_ok : forall n s y, (s < 2)%nat -> (1 <= n)%nat -> y_targ y <> None -> one_round 2 2 swap gamma 1 1 1 1 y (round_d n s).
Proof.
  intros n s y Hs Hn NT. split.
  - intros o Io. unfold round_d in Io. rewrite !in_app_iff in Io. destruct Io as [[Io|Io]|Io]; [apply repeat_spec in Io; subst; apply row_ok; lia|..]; cbn [In] in Io; intuition (subst; try (apply row_ok; lia); cbn; lra).
  - destruct (y_targ y); [|congruence]. eexists _, 1, _. split; [reflexivity|]. split; [|lra]. intros s' a' Hs' Ha'. exists (YUpdate (row_of gamma s' a')). split; [|apply row_visits]. rewrite in_app_iff. cbn [In].
    destruct n as [|n]; [lia|]. cbn [repeat In]. both s; both s'; both a'; cbn; tauto.
Qed.
Definition round_c (n s : nat) : list cop :=
  (concat (repeat [CUpdate 1 (row_of gamma s 1); CSync 1 1] n) ++
   [CUpdate 0 (row_of gamma s 0); CUpdate 1 (row_of gamma s 0); CUpdate 0 (row_of gamma (1 - s) 1); CUpdate 1 (row_of gamma (1 - s) 1); CUpdate 0 (row_of gamma (1 - s) 0); CUpdate 1 (row_of gamma (1 - s) 0); CSync 0 1; CSync 1 1;
    CUpdate 0 (row_of gamma s 1); CUpdate 1 (row_of gamma s 1)]) ++ [CSync 0 1; CSync 1 1].
Lemma round_c_ok : forall n s, (s < 2)%nat -> c_round 2 2 swap gamma 2 1 1 1 1 (round_c n s).
Proof.
  intros n s Hs. split.
  - intros o Io. unfold round_c in Io. rewrite !in_app_iff in Io. destruct Io as [[Io|Io]|Io].
    + apply in_concat in Io. destruct Io as (l & Il & Io). apply repeat_spec in Il. subst l. cbn [In] in Io. destruct Io as [<-|[<-|[]]]; (split; [lia|]); [apply row_ok; lia|lra].
    + cbn [In] in Io. repeat (destruct Io as [<-|Io]; [split; [lia|]; first [apply row_ok; lia|lra]|]). destruct Io.
    + cbn [In] in Io. destruct Io as [<-|[<-|[]]]; (split; [lia|lra]).
  - eexists _, _. split; [reflexivity|]. split.
    + intros i s' a' Hi Hs' Ha'. exists (CUpdate i (row_of gamma s' a')). split; [|split; [reflexivity|apply row_visits]]. rewrite in_app_iff. right. cbn [In]. both s; both s'; both a'; both i; cbn; tauto.
    + intros i Hi. exists 1. split; [|lra]. both i; cbn; tauto.
Qed.
Hypothesis Hg : 1/2 < gamma < 1.
Lemma loop_d : forall n s P y, (s < 2)%nat -> 1 < P -> st y (mk s (- P) (-1) 0 (-1)) (mk s (- P) (-1) 0 (-1)) -> exists y', yrun_d y (repeat (YUpdate (row_of gamma s 1)) n) = (y', Ok tt) /\ st y' (mk s (- P) (- cost n) 0 (-1)) (mk s (- P) (-1) 0 (-1)).
Proof.
  intros n s P y Hs HP S0. induction n as [|n IH].
  - exists y. split; [reflexivity|]. revert S0. apply st_ext; intros s' a' _ _; unfold mk; cbn [cost]; destruct (Nat.eqb s' s), a'; lra.
  - destruct IH as (y1 & R1 & S1). destruct (@double_update y1 _ _ s 1 1 Hs ltac:(lia) ltac:(lia) S1) as (y2 & E2 & S2).
    { intros [|[|d]] Hd N; try lia. unfold next, mk. cbn. rewrite Nat.eqb_refl. lra. }
    exists y2. split.
    + replace (repeat (YUpdate (row_of gamma s 1)) (S n)) with (repeat (YUpdate (row_of gamma s 1)) n ++ [YUpdate (row_of gamma s 1)]) by (symmetry; apply (repeat_cons n)). rewrite yrun_app, R1. cbn [yrun]. now rewrite E2.
    + revert S2. apply st_ext; both s; two; unfold upd, mk, reward, next; cbn; lra.
Qed.
Lemma cycle_d : forall n s y, (s < 2)%nat -> (1 <= n)%nat -> 1 < gamma * cost n -> st y (mk s (- (gamma * cost n)) (-1) 0 (-1)) (mk s (- (gamma * cost n)) (-1) 0 (-1)) ->
  exists y', yrun_d y (round_d n s) = (y', Ok tt) /\ st y' (mk (1 - s) (- (gamma * cost n)) (-1) 0 (-1)) (mk (1 - s) (- (gamma * cost n)) (-1) 0 (-1)).
Proof.
  intros n s y Hs Hn HP S0. assert (C1 := cost_ge ltac:(lra) n). destruct (@loop_d n s _ y Hs HP S0) as (y1 & R1 & S1). unfold round_d. rewrite !yrun_app, R1.
  set (P := gamma * cost n) in *. set (C := cost n) in *.
  destruct (@double_update y1 _ _ (1 - s) 1 0 ltac:(lia) ltac:(lia) ltac:(lia) S1) as (y2 & E2 & S2). { intros [|[|d]] Hd N; try lia. both s; unfold next, mk; cbn; lra. }
  assert (S2' : st y2 (mk s (- P) (- C) 0 (-1)) (mk s (- P) (-1) 0 (-1))) by (revert S2; apply st_ext; both s; two; unfold upd, mk, reward, next; cbn; lra).
  destruct (@double_update y2 _ _ s 0 0 Hs ltac:(lia) ltac:(lia) S2') as (y3 & E3 & S3). { intros [|[|d]] Hd N; try lia. both s; unfold next, mk; cbn; lra. }
  assert (S3' : st y3 (mk s 0 (- C) 0 (-1)) (mk s (- P) (-1) 0 (-1))) by (revert S3; apply st_ext; both s; two; unfold upd, mk, reward, next; cbn; lra).
  destruct (@double_update y3 _ _ (1 - s) 0 1 ltac:(lia) ltac:(lia) ltac:(lia) S3') as (y4 & E4 & S4). { intros [|[|d]] Hd N; try lia. both s; unfold next, mk; cbn; lra. }
  assert (S4' : st y4 (mk s 0 (- C) (- P) (-1)) (mk s (- P) (-1) 0 (-1))) by (revert S4; apply st_ext; both s; two; unfold upd, mk, reward, next, P; cbn; lra).
  destruct (@exact_sync (target_double 2 net) gd y4 _ _ S4') as (y5 & E5 & S5).
  destruct (@double_update y5 _ _ s 1 0 Hs ltac:(lia) ltac:(lia) S5) as (y6 & E6 & S6). { intros [|[|d]] Hd N; try lia. both s; unfold next, mk; cbn; lra. }
  assert (S6' : st y6 (mk (1 - s) (- P) (-1) 0 (-1)) (mk s 0 (- C) (- P) (-1))) by (revert S6; apply st_ext; both s; two; unfold upd, mk, reward, next; cbn; lra).
  destruct (@exact_sync (target_double 2 net) gd y6 _ _ S6') as (y7 & E7 & S7). exists y7. split; auto.
  cbn [yrun]. rewrite E2, E3, E4, E5, E6, E7. reflexivity.
Qed.
Definition side (k : nat) : nat := if Nat.even k then 0%nat else 1%nat.
Lemma side_lt : forall k, (side k < 2)%nat.
Proof. intros k. unfold side. destruct (Nat.even k); lia. Qed.
Lemma side_S : forall k, side (S k) = (1 - side k)%nat.
Proof. intros k. unfold side. rewrite Nat.even_succ, <- Nat.negb_even. destruct (Nat.even k); reflexivity. Qed.
Lemma cycles_d : forall n k y, (1 <= n)%nat -> 1 < gamma * cost n -> st y (mk 0 (- (gamma * cost n)) (-1) 0 (-1)) (mk 0 (- (gamma * cost n)) (-1) 0 (-1)) ->
  exists y', yrun_d y (concat (map (fun j => round_d n (side j)) (seq 0 k))) = (y', Ok tt) /\ st y' (mk (side k) (- (gamma * cost n)) (-1) 0 (-1)) (mk (side k) (- (gamma * cost n)) (-1) 0 (-1)).
Proof.
  intros n k y Hn HP S0. induction k as [|k (y1 & R1 & S1)].
  - exists y. split; [reflexivity|exact S0].
  - destruct (@cycle_d n (side k) y1 (side_lt k) Hn HP S1) as (y2 & R2 & S2). exists y2. rewrite side_S. split; auto. rewrite seq_S, map_app, concat_app, yrun_app, R1. cbn [map concat]. now rewrite app_nil_r.
Qed.

(** * ClippedDoubleQLearning *)
Definition gc := analytic_shared 2 2 (fun y h => h - y) net.
Notation cstep_c := (cstep 2 net mse gc sub).
Notation crun_c := (crun 2 net mse gc sub).
Lemma gc_ok : shared_differentiates 2 2 swap gamma 2 net mse gc.
Proof. apply (@analytic_clipped 2 2 2 net mse1 (fun y h => h - y) swap gamma); [lia|lia|apply T|exact mse_deriv]. Qed.
Definition st2 (ys : list sys) (f1 g1 f2 g2 : nat -> nat -> R) : Prop := exists y1 y2, ys = [y1; y2] /\ st y1 f1 g1 /\ st y2 f2 g2.
Definition pick {A : Type} (i : nat) (x x' : A) : A := match i with O => x | _ => x' end.
Lemma clipped_update : forall ys f1 g1 f2 g2 i s a m, (i < 2)%nat -> (s < 2)%nat -> (a < 2)%nat -> st2 ys f1 g1 f2 g2 ->
  (exists ga gb c, In ga [g1; g2] /\ In gb [g1; g2] /\ (c < 2)%nat /\ (forall d, (d < 2)%nat -> d <> c -> ga (next swap s a) d < ga (next swap s a) c) /\ gb (next swap s a) c = m) ->
  (forall ga gb c, In ga [g1; g2] -> In gb [g1; g2] -> best 2 (ga (next swap s a)) c -> m <= gb (next swap s a) c) ->
  exists ys', cstep_c ys (CUpdate i (row_of gamma s a)) = (ys', Ok tt) /\
  st2 ys' (pick i (upd f1 s a (reward swap s a + gamma * m)) f1) g1 (pick i f2 (upd f2 s a (reward swap s a + gamma * m))) g2.
Proof.
  intros ys f1 g1 f2 g2 i s a m Hi Hs Ha (y1 & y2 & -> & S1 & S2) EX LE. pose proof S1 as (_ & _ & th1 & t1 & _ & P1 & _ & K1). pose proof S2 as (_ & _ & th2 & t2 & _ & P2 & _ & K2).
  assert (UW : unwraps (map targ_params [y1; y2]) = Some [t1; t2]) by (cbn [map unwraps]; rewrite P1, P2; reflexivity). assert (Hn := swap_closed Hs Ha).
  assert (LK : forall t, In t [t1; t2] -> exists g, In g [g1; g2] /\ like t g) by (intros t [<-|[<-|[]]]; [exists g1|exists g2]; cbn; auto). assert (LK' : forall g, In g [g1; g2] -> exists t, In t [t1; t2] /\ like t g) by (intros t [<-|[<-|[]]]; [exists t1|exists t2]; cbn; auto).
  assert (LP : least_pair 2 [t1; t2] (next swap s a) m).
  { split.
    - destruct EX as (ga & gb & c & Ia & Ib & Hc & U & <-). destruct (LK' ga Ia) as (ta & Ita & _ & Ha'). destruct (LK' gb Ib) as (tb & Itb & _ & Hb'). exists ta, tb. split; auto. split; auto. rewrite <- Hb' by auto. apply avg_of_unique. split; auto. intros d Hd N. rewrite !Ha' by auto. now apply U.
    - intros ti tj x Ii Ij G. destruct (avg_extremes G) as (c & _ & [Hc Bc] & _ & E & _). destruct (LK ti Ii) as (ga & Ia & _ & Ha'). destruct (LK tj Ij) as (gb & Ib & _ & Hb'). specialize (LE ga gb c Ia Ib). rewrite Hb' in E by auto. cut (m <= gb (next swap s a) c); [lra|]. apply LE. split; auto. intros d Hd. rewrite <- !Ha' by auto. now apply Bc. }
  assert (TL : forall t, In t [t1; t2] -> length t = (2 * 2)%nat) by (intros t It; destruct (LK t It) as (g & _ & L & _); exact L).
  assert (TG : target_clipped 2 net [t1; t2] (fb_t (row_of gamma s a)) = Ok [reward swap s a + gamma * m]).
  { destruct (genuine_states (le_S 1 1 (le_n 1)) (row_genuine Hs Ha)) as [W ST]. destruct (@clipped_boot 2 2 ltac:(lia) net T [t1; t2] (fb_t (row_of gamma s a)) ltac:(cbn; lia) TL W ST) as (G & TG & LG & RG). rewrite TG. f_equal.
    destruct (RG 0%nat (next swap s a) eq_refl) as (x & [X0 X1] & X2). cbn [fb_t row_of tb_Snext length] in LG. destruct G as [|G0 [|G1 G]]; cbn in LG; try lia. f_equal. cbn [nth fb_t row_of tb_Rn tb_In] in X2. rewrite X2. do 2 f_equal. destruct LP as [L0 L1].
    apply Rle_antisym; [destruct L0 as (ti & tj & Ii & Ij & G')|destruct X0 as (ti & tj & Ii & Ij & G')]; eauto. }
  assert (ST : forall y f g, st y f g -> exists y', ystep 2 net (fun _ _ => target_clipped 2 net [t1; t2]) mse (fun th _ => gc th [t1; t2]) sub y (YUpdate (row_of gamma s a)) = (y', Ok tt) /\ st y' (upd f s a (reward swap s a + gamma * m)) g).
  { intros y f g S. apply exact_update; auto. intros th targ [L _] _. exact (@gc_ok th [t1; t2] [(s, a)] (row_of gamma s a) L eq_refl TL (row_genuine Hs Ha)). }
  cbn [DblModel.cstep]. both i; cbn [nth_error]; rewrite UW.
  - destruct (ST y1 f1 g1 S1) as (y' & E & S). rewrite E. eexists. split; [reflexivity|]. exists y', y2. auto.
  - destruct (ST y2 f2 g2 S2) as (y' & E & S). rewrite E. eexists. split; [reflexivity|]. exists y1, y'. auto.
Qed.
Lemma clipped_sync : forall ys f1 g1 f2 g2 i, (i < 2)%nat -> st2 ys f1 g1 f2 g2 -> exists ys', cstep_c ys (CSync i 1) = (ys', Ok tt) /\ st2 ys' f1 (pick i f1 g1) f2 (pick i g2 f2).
Proof.
  intros ys f1 g1 f2 g2 i Hi (y1 & y2 & -> & S1 & S2). cbn [DblModel.cstep]. both i; cbn [nth_error].
  - destruct (@exact_sync (fun _ _ => target_clipped 2 net []) (fun th _ => gc th []) y1 f1 g1 S1) as (y' & E & S). rewrite E. eexists. split; [reflexivity|]. exists y', y2. auto.
  - destruct (@exact_sync (fun _ _ => target_clipped 2 net []) (fun th _ => gc th []) y2 f2 g2 S2) as (y' & E & S). rewrite E. eexists. split; [reflexivity|]. exists y1, y'. auto.
Qed.
Lemma st2_ext : forall ys f1 g1 f2 g2 f1' g1' f2' g2', (forall s a, (s < 2)%nat -> (a < 2)%nat -> f1 s a = f1' s a) -> (forall s a, (s < 2)%nat -> (a < 2)%nat -> g1 s a = g1' s a) -> (forall s a, (s < 2)%nat -> (a < 2)%nat -> f2 s a = f2' s a) -> (forall s a, (s < 2)%nat -> (a < 2)%nat -> g2 s a = g2' s a) ->
  st2 ys f1 g1 f2 g2 -> st2 ys f1' g1' f2' g2'.
Proof. intros ys f1 g1 f2 g2 f1' g1' f2' g2' E1 E2 E3 E4 (y1 & y2 & -> & S1 & S2). exists y1, y2. split; auto. split; [revert S1|revert S2]; now apply st_ext. Qed.
Lemma crun_app : forall a b ys, crun_c ys (a ++ b) = match crun_c ys a with (y1, Ok _) => crun_c y1 b | r => r end.
Proof. induction a as [|o a IH]; intros b ys; [reflexivity|]. cbn [app crun]. destruct (cstep_c ys o) as [ys1 [u|e]]; auto. Qed.
Ltac least s := let ga := fresh in let gb := fresh in let c := fresh "c" in let Hc := fresh "Hc" in let Bc := fresh "Bc" in intros ga gb c [<-|[<-|[]]] [<-|[<-|[]]] [Hc Bc]; pose proof (Bc 0%nat ltac:(lia)); pose proof (Bc 1%nat ltac:(lia)); clear Bc; repeat match goal with f := mk _ _ _ _ _ |- _ => subst f end; both c; both s; unfold next, mk in *; cbn in *; lra.
Lemma loop_c : forall n s P ys, (s < 2)%nat -> 1 < P -> st2 ys (mk s (- P) (-1) 0 (-1)) (mk s (- P) (-1) 0 (-1)) (mk s (- P) (-1) 0 (-1)) (mk s (- P) (-1) 0 (-1)) ->
  exists ys', crun_c ys (concat (repeat [CUpdate 1 (row_of gamma s 1); CSync 1 1] n)) = (ys', Ok tt) /\ st2 ys' (mk s (- P) (-1) 0 (-1)) (mk s (- P) (-1) 0 (-1)) (mk s (- P) (- cost n) 0 (-1)) (mk s (- P) (- cost n) 0 (-1)).
Proof.
  intros n s P ys Hs HP S0. induction n as [|n IH].
  - exists ys. split; [reflexivity|]. revert S0. apply st2_ext; intros s' a' _ _; unfold mk; cbn [cost]; destruct (Nat.eqb s' s), a'; lra.
  - destruct IH as (y1 & R1 & S1). assert (C1 := cost_ge ltac:(lra) n).
    destruct (@clipped_update y1 _ _ _ _ 1 s 1 (- cost n) ltac:(lia) Hs ltac:(lia) S1) as (y2 & E2 & S2).
    { eexists _, _, 1%nat. split; [now left|]. split; [right; now left|]. split; [lia|]. split; [intros [|[|d]] Hd N; try lia|]; both s; unfold next, mk; cbn; lra. }
    { least s. }
    destruct (@clipped_sync y2 _ _ _ _ 1 ltac:(lia) S2) as (y3 & E3 & S3). exists y3. split.
    + replace (repeat [CUpdate 1 (row_of gamma s 1); CSync 1 1] (S n)) with (repeat [CUpdate 1 (row_of gamma s 1); CSync 1 1] n ++ [[CUpdate 1 (row_of gamma s 1); CSync 1 1]]) by (symmetry; apply (repeat_cons n)). rewrite concat_app, crun_app, R1. cbn [concat app crun]. now rewrite E2, E3.
    + revert S3. cbn [pick]. apply st2_ext; both s; two; unfold upd, mk, reward, next; cbn; lra.
Qed.
Ltac upd_c y S i s' a m s j1 j2 c f1 g1 f2 g2 yy rr SS := 
  let S0 := fresh "S" in
  destruct (@clipped_update y _ _ _ _ i s' a m ltac:(lia) ltac:(lia) ltac:(lia) S) as (yy & rr & S0);
  [eexists _, _, c; split; [j1|]; split; [j2|]; split; [lia|]; split; [let d := fresh "d" in intros d ? ?; destruct d as [|[|d]]; try lia|]; both s; unfold next; repeat match goal with f := mk _ _ _ _ _ |- _ => unfold f end; unfold mk; cbn; lra
  |least s
  |assert (SS : st2 yy f1 g1 f2 g2) by (revert S0; cbn [pick]; apply st2_ext; repeat match goal with f := mk _ _ _ _ _ |- _ => unfold f end; both s; two; unfold upd, mk, reward, next; cbn; lra); clear S0].
Lemma cycle_c : forall n s ys, (s < 2)%nat -> 1 < gamma * cost n -> st2 ys (mk s (- (gamma * cost n)) (-1) 0 (-1)) (mk s (- (gamma * cost n)) (-1) 0 (-1)) (mk s (- (gamma * cost n)) (-1) 0 (-1)) (mk s (- (gamma * cost n)) (-1) 0 (-1)) ->
  exists ys', crun_c ys (round_c n s) = (ys', Ok tt) /\ st2 ys' (mk (1 - s) (- (gamma * cost n)) (-1) 0 (-1)) (mk (1 - s) (- (gamma * cost n)) (-1) 0 (-1)) (mk (1 - s) (- (gamma * cost n)) (-1) 0 (-1)) (mk (1 - s) (- (gamma * cost n)) (-1) 0 (-1)).
Proof.
  intros n s ys Hs HP S0. assert (C1 := cost_ge ltac:(lra) n). destruct (@loop_c n s _ ys Hs HP S0) as (z & R1 & S). unfold round_c. rewrite !crun_app, R1. set (C := cost n) in *. assert (HCP : gamma * C <= C) by nra. remember (gamma * C) as P eqn:EP.
  set (F1 := mk s (- P) (-1) 0 (-1)) in *. set (F2 := mk s (- P) (- C) 0 (-1)) in *.
  set (G1 := mk s 0 (-1) 0 (-1)). set (G2 := mk s 0 (- C) 0 (-1)). set (H1 := mk s 0 (-1) (- P) (-1)). set (H2 := mk s 0 (- C) (- P) (-1)).
  upd_c z S 0%nat s 0%nat 0 s ltac:(now left) ltac:(now left) 0%nat G1 F1 F2 F2 z1 r1 S1.
  upd_c z1 S1 1%nat s 0%nat 0 s ltac:(now left) ltac:(now left) 0%nat G1 F1 G2 F2 z2 r2 S2.
  upd_c z2 S2 0%nat (1 - s)%nat 1%nat 0 s ltac:(now left) ltac:(now left) 0%nat G1 F1 G2 F2 z3 r3 S3.
  upd_c z3 S3 1%nat (1 - s)%nat 1%nat 0 s ltac:(now left) ltac:(now left) 0%nat G1 F1 G2 F2 z4 r4 S4.
  upd_c z4 S4 0%nat (1 - s)%nat 0%nat (- C) s ltac:(now left) ltac:(right; now left) 1%nat H1 F1 G2 F2 z5 r5 S5.
  upd_c z5 S5 1%nat (1 - s)%nat 0%nat (- C) s ltac:(now left) ltac:(right; now left) 1%nat H1 F1 H2 F2 z6 r6 S6.
  destruct (@clipped_sync z6 _ _ _ _ 0 ltac:(lia) S6) as (z7 & r7 & S7). destruct (@clipped_sync z7 _ _ _ _ 1 ltac:(lia) S7) as (z8 & r8 & S8). cbn [pick] in S8.
  upd_c z8 S8 0%nat s 1%nat 0 s ltac:(now left) ltac:(now left) 0%nat H1 H1 H2 H2 z9 r9 S9.
  set (K := mk (1 - s) (- P) (-1) 0 (-1)).
  upd_c z9 S9 1%nat s 1%nat 0 s ltac:(now left) ltac:(now left) 0%nat K H1 K H2 z10 r10 S10.
  destruct (@clipped_sync z10 _ _ _ _ 0 ltac:(lia) S10) as (z11 & r11 & S11). destruct (@clipped_sync z11 _ _ _ _ 1 ltac:(lia) S11) as (z12 & r12 & S12). cbn [pick] in S12.
  exists z12. split; auto. cbn [crun]. rewrite r1, r2, r3, r4, r5, r6, r7, r8, r9, r10, r11, r12. reflexivity.
Qed.
Lemma cycles_c : forall n k ys, 1 < gamma * cost n -> st2 ys (mk 0 (- (gamma * cost n)) (-1) 0 (-1)) (mk 0 (- (gamma * cost n)) (-1) 0 (-1)) (mk 0 (- (gamma * cost n)) (-1) 0 (-1)) (mk 0 (- (gamma * cost n)) (-1) 0 (-1)) ->
  exists ys', crun_c ys (concat (map (fun j => round_c n (side j)) (seq 0 k))) = (ys', Ok tt) /\ st2 ys' (mk (side k) (- (gamma * cost n)) (-1) 0 (-1)) (mk (side k) (- (gamma * cost n)) (-1) 0 (-1)) (mk (side k) (- (gamma * cost n)) (-1) 0 (-1)) (mk (side k) (- (gamma * cost n)) (-1) 0 (-1)).
Proof.
  intros n k y HP S0. induction k as [|k (y1 & R1 & S1)].
  - exists y. split; [reflexivity|exact S0].
  - destruct (@cycle_c n (side k) y1 (side_lt k) HP S1) as (y2 & R2 & S2). exists y2. rewrite side_S. split; auto. rewrite seq_S, map_app, concat_app, crun_app, R1. cbn [map concat]. now rewrite app_nil_r.
Qed.
End Rows.
