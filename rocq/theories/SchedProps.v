(** Property C132: learning rate schedules.  Specifications in SchedSpec.v. *)
From Coq Require Import List Lia Bool Arith ZArith Reals Lra.
From Verif Require Import PyCommon CommonProofs UtilsModel UtilsSpec UtilsProofs2 UtilsProofs3 WrappersProofs DistModel DistSpec DistProofs DistProofs2 DistProofs3 LossModel LossSpec LossProofs QModel QProofs QProps TDModel TDSpec TDProofs TDProofs2 TDProofs3 TDProofs4 CoreModel CoreSpec CoreProofs PolicyModel PolicySpec.
From Verif Require Import LearnModel LearnSpec LearnProofs LearnProofs2 LearnProofs3 LearnProofs4 LearnProofs5 LearnProofs6 LearnProofs7 NoiseSpec NoiseProofs NoiseProofs2 NoiseProofs3 NoiseProofs4 NoiseProofs5 PlayModel PlaySpec PlayProofs PlayProps ChanceModel ChanceSpec ChanceProofs ChanceProofs2 SchedModel SchedSpec SchedProofs.
Import ListNotations.
Set Implicit Arguments.
Local Open Scope R_scope.

(** C132: the mean square error of every value after n updates is exactly what the recursion with the learning rates and the variance of the
    targets says, for every schedule and every order of the pairs. *)
Theorem C132_mean_square : forall nS nA dyn P gamma net target val grads sub f t th0 aim sch r n os, noisy_data nS nA dyn P gamma net target val grads f t th0 aim ->
  (forall ws, noise_list (length P) n ws -> follows nS nA (length P) dyn gamma (one_by_one r n) ws (os ws)) ->
  exists v, gives nS nA net (fun ws => yrun nA net target mse grads sub (scheduled sch f t) (os ws)) (length P) n v /\
  forall s a x, (s < nS)%nat -> (a < nA)%nat -> q_call_a (Some nA) (one_hot nA) (fun x => x) (net th0) s a = Ok x ->
    mean_over P n (fun ws => (v ws s a - mean_aim P aim s a) ^ 2) = square_error (rate sch r s a) (variance P aim s a) ((x - mean_aim P aim s a) ^ 2) n.
Proof.
  intros nS nA dyn P gamma net target val grads sub f t th0 aim sch r n os DATA FO. eexists. split; [exact (@sched_values nS nA dyn P gamma net target val grads sub f t th0 aim DATA sch r n os FO)|].
  intros s a x Hs Ha X. destruct DATA as (HA & HP & _ & TB & _ & _ & _ & L & _). rewrite (tab_call (table_tabular TB) th0 L Hs Ha) in X. injection X as <-. exact (@track_square P HP (fun w => aim w s a) (rate sch r s a) n 0%nat (tq nA th0 s a)).
Qed.
Print Assumptions C132_mean_square.

(** With learning rates that tend to 0 but have an infinite sum, the values settle at the means of their targets, from any initial table. *)
Theorem C132_settles : forall nS nA dyn P gamma net target val grads sub f t th0 aim sch r s a eps, noisy_data nS nA dyn P gamma net target val grads f t th0 aim -> vanishing sch ->
  (s < nS)%nat -> (a < nA)%nat -> enough sch r s a -> 0 < eps ->
  exists N, forall n os, (N <= n)%nat -> (forall ws, noise_list (length P) n ws -> follows nS nA (length P) dyn gamma (one_by_one r n) ws (os ws)) ->
  exists v, gives nS nA net (fun ws => yrun nA net target mse grads sub (scheduled sch f t) (os ws)) (length P) n v /\ mean_over P n (fun ws => (v ws s a - mean_aim P aim s a) ^ 2) <= eps.
Proof.
  intros nS nA dyn P gamma net target val grads sub f t th0 aim sch r s a eps DATA [V1 V2] Hs Ha EN He. pose proof DATA as (HA & HP & _ & TB & _ & _ & _ & L & _).
  destruct (@square_small (rate sch r s a)) with (vr := variance P aim s a) (e0 := (tq nA th0 s a - mean_aim P aim s a) ^ 2) (e := eps) as [N HN]; auto.
  - intros k. unfold rate. destruct (_ && _)%bool; auto. lra.
  - apply (@var_pos P HP).
  - apply pow2_ge_0.
  - intros e H. destruct (V2 e H) as [K HK]. exists K. intros k Hk. unfold rate. destruct (_ && _)%bool; auto. lra.
  - exists N. intros n os Hn FO. destruct (@C132_mean_square nS nA dyn P gamma net target val grads sub f t th0 aim sch r n os DATA FO) as (v & G & E). exists v. split; auto. rewrite (E s a (tq nA th0 s a) Hs Ha) by (now apply (tab_call (table_tabular TB))). now apply HN.
Qed.
Print Assumptions C132_settles.

(** With learning rate 1 / (k + 1) the value of a pair that is always updated is the average of its targets: in every execution, not only in
    the mean, and whatever the initial table. *)
Theorem C132_average : forall nS nA dyn P gamma net target val grads sub f t th0 aim sch r s a n ws os, noisy_data nS nA dyn P gamma net target val grads f t th0 aim -> (forall k, sch (INR k) = 1 / (INR k + 1)) ->
  (s < nS)%nat -> (a < nA)%nat -> (forall k, r k = (s, a)) -> (1 <= n)%nat -> follows nS nA (length P) dyn gamma (one_by_one r n) ws os ->
  exists y' th, yrun nA net target mse grads sub (scheduled sch f t) os = (y', Ok tt) /\ q_params y' = Node [0%nat] [Node [0%nat] [Leaf th]] /\
  q_call_a (Some nA) (one_hot nA) (fun x => x) (net th) s a = Ok (total (map (fun w => aim w s a) ws) / INR n).
Proof.
  intros nS nA dyn P gamma net target val grads sub f t th0 aim sch r s a n ws os DATA SCH Hs Ha HR Hn FO. destruct (@sched_run nS nA dyn P gamma net target val grads sub f t th0 aim DATA sch r n 0%nat ws os _ (@inv_start nS nA dyn P gamma net target val grads f t th0 aim DATA sch) FO) as (y' & R' & (f1 & th & E & F1 & L1) & LW & _ & V).
  exists y', th. split; auto. split; [rewrite E; exact F1|]. destruct DATA as (HA & _ & _ & TB & _). rewrite (tab_call (table_tabular TB) th L1 Hs Ha). f_equal. specialize (V s a Hs Ha). rewrite E in V at 1. unfold q_params in V at 1. cbn [y_learner l_func] in V. rewrite F1 in V. change (tab (wrap th)) with th in V. rewrite V.
  assert (RT : forall k, rate sch r s a k = 1 / (INR k + 1)) by (intros k; unfold rate; rewrite HR; cbn [fst snd]; rewrite !Nat.eqb_refl; cbn [andb]; apply SCH).
  assert (Z := @track_average _ (fun w => aim w s a) RT ws 0%nat (tq nA (tab (q_params (scheduled sch f t))) s a)). rewrite LW in Z. cbn [INR] in Z. rewrite Rplus_0_l, Rmult_0_l, Rplus_0_l in Z. rewrite <- Z. field. apply not_0_INR. lia.
Qed.
Print Assumptions C132_average.

(** In a contextual bandit such a schedule makes the greedy agents reliable: the probability that training ends with a table whose agents choose
    anything but the best action somewhere tends to 0.  (With a constant learning rate it does not, C131_reliable_refuted.) *)
Theorem C132_reliable : forall nS nA dyn P gamma net target val grads sub f th0 aim sch r best eps, noisy_data nS nA dyn P gamma net target val grads f None th0 aim -> vanishing sch ->
  (forall s a, (s < nS)%nat -> (a < nA)%nat -> enough sch r s a) -> (forall s, (s < nS)%nat -> (best s < nA)%nat /\ forall b, (b < nA)%nat -> b <> best s -> mean_aim P aim s b < mean_aim P aim s (best s)) -> 0 < eps ->
  exists N, forall n os, (N <= n)%nat -> (forall ws, noise_list (length P) n ws -> follows nS nA (length P) dyn gamma (one_by_one r n) ws (os ws)) ->
  exists bad : list nat -> R, mean_over P n bad <= eps /\
  forall ws, noise_list (length P) n ws -> exists y' th, yrun nA net target mse grads sub (scheduled sch f None) (os ws) = (y', Ok tt) /\ q_params y' = Node [0%nat] [Node [0%nat] [Leaf th]] /\
    (bad ws = 1 \/ bad ws = 0 /\ forall policy agent gs s, value_based nA (net th) policy -> greedy_agent nA policy agent -> noise nA gs -> (s < nS)%nat -> agent s gs = Ok (best s)).
Proof.
  intros nS nA dyn P gamma net target val grads sub f th0 aim sch r best eps DATA [V1 V2] EN BEST He. pose proof DATA as (HA & HP & _ & TB & _ & _ & _ & L & _). pose proof (table_tabular TB) as T.
  destruct (@min_pos nS nA (fun s b => if Nat.eqb b (best s) then 1 else mean_aim P aim s (best s) - mean_aim P aim s b)) as (e & Hpos & EM). { intros s a Hs Ha. destruct (Nat.eqb_spec a (best s)) as [|NE]; [lra|]. assert (Z := proj2 (BEST s Hs) a Ha NE). lra. }
  set (cells := list_prod (seq 0 nS) (seq 0 nA)). set (d := (e / 2) ^ 2 * eps / (INR (length cells) + 1)). assert (PL : 0 <= INR (length cells)) by apply pos_INR. assert (Hd : 0 < d) by (apply Rdiv_lt_0_compat; [apply Rmult_lt_0_compat; auto; apply pow_lt; lra|lra]).
  assert (SM : exists N, forall n, (N <= n)%nat -> forall s a, (s < nS)%nat -> (a < nA)%nat -> square_error (rate sch r s a) (variance P aim s a) ((tq nA th0 s a - mean_aim P aim s a) ^ 2) n <= d).
  { assert (ONE : forall s a, (s < nS)%nat -> (a < nA)%nat -> exists N, forall n, (N <= n)%nat -> square_error (rate sch r s a) (variance P aim s a) ((tq nA th0 s a - mean_aim P aim s a) ^ 2) n <= d).
    { intros s a Hs Ha. apply square_small; auto.
      - intros k. unfold rate. destruct (_ && _)%bool; auto. lra.
      - apply (@var_pos P HP).
      - apply pow2_ge_0.
      - intros e' H. destruct (V2 e' H) as [K HK]. exists K. intros k Hk. unfold rate. destruct (_ && _)%bool; auto. lra.
      - exact (EN s a Hs Ha). }
    assert (ALL : forall l : list (nat * nat), (forall p, In p l -> (fst p < nS)%nat /\ (snd p < nA)%nat) -> exists N, forall n, (N <= n)%nat -> forall p, In p l -> square_error (rate sch r (fst p) (snd p)) (variance P aim (fst p) (snd p)) ((tq nA th0 (fst p) (snd p) - mean_aim P aim (fst p) (snd p)) ^ 2) n <= d).
    { induction l as [|p l IH]; intros H; [exists 0%nat; intros n _ p []|]. destruct IH as [N1 H1]; [intros; apply H; now right|]. destruct (H p ltac:(now left)) as [Hs Ha]. destruct (ONE _ _ Hs Ha) as [N2 H2]. exists (Nat.max N1 N2). intros n Hn p' [<-|I]; [apply H2; lia|apply H1; auto; lia]. }
    destruct (ALL cells) as [N HN]; [intros [s a] I; apply in_prod_iff in I; destruct I as [I1 I2]; apply in_seq in I1; apply in_seq in I2; cbn; lia|]. exists N. intros n Hn s a Hs Ha. apply (HN n Hn (s, a)). apply in_prod_iff. split; apply in_seq; lia. }
  destruct SM as [N HN]. exists N. intros n os Hn FO. pose proof (@sched_values nS nA dyn P gamma net target val grads sub f None th0 aim DATA sch r n os FO) as GV.
  set (v := fun ws s a => track (rate sch r s a) (fun w => aim w s a) 0 (tq nA th0 s a) ws). set (far := fun ws (p : nat * nat) => if Rlt_dec (Rabs (v ws (fst p) (snd p) - mean_aim P aim (fst p) (snd p))) (e / 2) then false else true).
  exists (fun ws => if existsb (far ws) cells then 1 else 0). split.
  - apply Rle_trans with (mean_over P n (fun ws => total (map (fun p => 4 / e ^ 2 * (v ws (fst p) (snd p) - mean_aim P aim (fst p) (snd p)) ^ 2) cells))).
    + apply (@mean_le P HP). intros ws _. assert (POS : forall p, 0 <= 4 / e ^ 2 * (v ws (fst p) (snd p) - mean_aim P aim (fst p) (snd p)) ^ 2) by (intros p; apply Rmult_le_pos; [left; apply Rdiv_lt_0_compat; [lra|apply pow_lt; lra]|apply pow2_ge_0]).
      clearbody cells. clear - POS Hpos. induction cells as [|p l IH]; cbn [existsb map]; [change (total []) with 0; lra|]. rewrite total_cons. specialize (POS p). destruct (far ws p) eqn:FP; cbn [orb].
      * assert (Q : 0 <= total (map (fun p => 4 / e ^ 2 * (v ws (fst p) (snd p) - mean_aim P aim (fst p) (snd p)) ^ 2) l)) by (destruct (existsb (far ws) l); lra). unfold far in FP. destruct (Rlt_dec _ _) as [|NL] in FP; [discriminate|]. apply Rnot_lt_le in NL. rewrite <- (pow2_abs (v ws (fst p) (snd p) - _)) in POS |- *.
        set (u := Rabs _) in *. assert (U : (e / 2) ^ 2 <= u ^ 2) by (apply pow_incr; lra). assert (1 <= 4 / e ^ 2 * u ^ 2); [|lra]. apply Rle_trans with (4 / e ^ 2 * (e / 2) ^ 2); [right; field; lra|]. apply Rmult_le_compat_l; auto. left. apply Rdiv_lt_0_compat; [lra|apply pow_lt; lra].
      * lra.
    + rewrite (@mean_total P HP). apply Rle_trans with (total (map (fun _ : nat * nat => 4 / e ^ 2 * d) cells)).
      * apply total_le. intros [s a] I. apply in_prod_iff in I. destruct I as [I1 I2]. apply in_seq in I1. apply in_seq in I2. cbn [fst snd]. rewrite (@mean_scal P). apply Rmult_le_compat_l; [left; apply Rdiv_lt_0_compat; [lra|apply pow_lt; lra]|]. eapply Rle_trans; [right; exact (@track_square P HP (fun w => aim w s a) (rate sch r s a) n 0%nat (tq nA th0 s a))|]. apply (HN n Hn s a); lia.
      * rewrite total_const. unfold d. replace (INR (length cells) * (4 / e ^ 2 * ((e / 2) ^ 2 * eps / (INR (length cells) + 1)))) with (eps * (INR (length cells) / (INR (length cells) + 1))) by (field; lra). rewrite <- (Rmult_1_r eps) at 2. apply Rmult_le_compat_l; [lra|]. apply (Rmult_le_reg_r (INR (length cells) + 1)); [lra|]. unfold Rdiv. rewrite Rmult_assoc, Rinv_l by lra. lra.
  - intros ws Hws. destruct (GV ws Hws) as (y' & th & R' & Q' & V'). exists y', th. split; auto. split; auto. destruct (existsb (far ws) cells) eqn:EB; [now left|right]. split; auto. intros policy agent gs s VB GA NZ Hs.
    assert (L' : length th = (nS * nA)%nat). { destruct (@sched_run nS nA dyn P gamma net target val grads sub f None th0 aim DATA sch r n 0%nat ws (os ws) _ (@inv_start nS nA dyn P gamma net target val grads f None th0 aim DATA sch) (FO ws Hws)) as (y1 & R1 & (f1 & th1 & E & F1 & L1) & _). rewrite R1 in R'. injection R' as <-. rewrite E in Q'. unfold q_params in Q'. cbn [y_learner l_func] in Q'. rewrite F1 in Q'. unfold wrap in Q'. congruence. }
    assert (NEAR : forall b, (b < nA)%nat -> Rabs (tq nA th s b - mean_aim P aim s b) < e / 2). { intros b Hb. assert (I : In (s, b) cells) by (apply in_prod_iff; split; apply in_seq; lia). assert (F0 : far ws (s, b) = false) by (destruct (far ws (s, b)) eqn:X; auto; assert (existsb (far ws) cells = true) by (apply existsb_exists; eauto); congruence). unfold far in F0. cbn [fst snd] in F0. destruct (Rlt_dec _ _) as [LT|] in F0; [|discriminate].
      assert (E := V' s b Hs Hb). rewrite (tab_call T th L' Hs Hb) in E. injection E as E. change (tq nA th s b = v ws s b) in E. now rewrite E. }
    destruct (T _ L') as [W _]. destruct (@agent_greedy nA (net th) policy agent s gs HA W VB GA NZ) as (a & Ea & [Ha O]). rewrite Ea. f_equal. destruct (Nat.eq_dec a (best s)) as [|NE]; auto. exfalso.
    assert (QV : forall c, (c < nA)%nat -> qval nA (net th) s c = tq nA th s c). { intros c Hc. assert (E := @call_qval nA (net th) (fun x => x) s c W Hc). rewrite (tab_call T _ L' Hs Hc) in E. injection E as E. congruence. }
    destruct (BEST s Hs) as [HB _]. specialize (O (best s) HB). rewrite !QV in O by auto. assert (N1 := NEAR a Ha). assert (N2 := NEAR (best s) HB). assert (G := EM s a Hs Ha). destruct (Nat.eqb_spec a (best s)); [contradiction|]. apply Rabs_def2 in N1. apply Rabs_def2 in N2. lra.
Qed.
Print Assumptions C132_reliable.

(** The learning rates must not decrease too fast: with the exponential decay 1/2, 1/4, 1/8, ... a value that starts at 0 and whose targets are
    all 1 stays below 3/4 for ever. *)
Lemma fold_mult : forall l x, fold_right Rmult x l = fold_right Rmult 1 l * x.
Proof. induction l as [|y l IH]; intros x; cbn [fold_right]; [ring|]. rewrite IH. ring. Qed.
Lemma halves : forall n, 1/4 <= fold_right Rmult 1 (map (fun j => 1 - (1/2) ^ S j) (seq 0 n)).
Proof.
  assert (A : forall n, 1/4 + (1/2) ^ S (S n) <= fold_right Rmult 1 (map (fun j => 1 - (1/2) ^ S j) (seq 0 (S n)))).
  { induction n as [|n IH]; [cbn; lra|]. rewrite seq_S, map_app, fold_right_app. cbn [plus map fold_right]. rewrite fold_mult. set (p := fold_right Rmult 1 _) in *. set (h := (1/2) ^ S (S n)) in *. change ((1/2) ^ S (S (S n))) with (1/2 * h).
    assert (H4 : 0 < h <= 1/4). { unfold h. split; [apply pow_lt; lra|]. cbn [pow]. assert (Z := @pow_incr (1/2) 1 n ltac:(lra)). rewrite pow1 in Z. lra. } assert (X : (1/4 + h) * (1 - h) <= p * (1 - h)) by (apply Rmult_le_compat_r; lra). assert (Y : 0 <= h * (1/4 - h)) by (apply Rmult_le_pos; lra). apply Rle_trans with (p * (1 - h)); [|right; ring]. eapply Rle_trans; [|exact X]. lra. }
  intros [|n]; [cbn; lra|]. specialize (A n). assert (0 < (1/2) ^ S (S n)) by (apply pow_lt; lra). lra.
Qed.
Lemma prod_le : forall c m, (forall j, 0 <= 1 - (1/2) ^ S j <= 1 - c j) -> fold_right Rmult 1 (map (fun j => 1 - (1/2) ^ S j) m) <= fold_right Rmult 1 (map (fun j => 1 - c j) m).
Proof.
  intros c m H. assert (A : 0 <= fold_right Rmult 1 (map (fun j => 1 - (1/2) ^ S j) m) <= fold_right Rmult 1 (map (fun j => 1 - c j) m)); [|apply A]. induction m as [|j m IH]; [cbn; lra|]. cbn [map fold_right]. specialize (H j). split; [apply Rmult_le_pos; apply H || apply IH|apply Rmult_le_compat; try apply H; apply IH].
Qed.
Theorem C132_decay_refuted : exists sch dyn aim, vanishing sch /\ (forall k, 0 < sch (INR k)) /\ mean_aim [1] aim 0 0 = 1 /\
  forall gamma net target val grads sub f r n ws os, noisy_data 1 1 dyn [1] gamma net target val grads f None [0] aim -> follows 1 1 1 dyn gamma (one_by_one r n) ws os ->
  exists y' th x, yrun 1 net target mse grads sub (scheduled sch f None) os = (y', Ok tt) /\ q_params y' = Node [0%nat] [Node [0%nat] [Leaf th]] /\ q_call_a (Some 1%nat) (one_hot 1) (fun x => x) (net th) 0%nat 0%nat = Ok x /\ x <= 3/4.
Proof.
  exists (fun c => Rpower (1/2) (c + 1)), (fun _ _ _ => (0%nat, 1, true)), (fun _ _ _ => 1). assert (SK : forall k, Rpower (1/2) (INR k + 1) = (1/2) ^ S k) by (intros k; rewrite <- S_INR; apply Rpower_pow; lra).
  assert (S1 : forall k, 0 < (1/2) ^ S k <= 1) by (intros k; assert (Z := @pow_incr (1/2) 1 (S k) ltac:(lra)); rewrite pow1 in Z; split; [apply pow_lt; lra|exact Z]). split; [split|split; [|split]].
  - intros k. rewrite SK. specialize (S1 k). lra.
  - intros e He. destruct (@pow_small (1/2) 1 e ltac:(lra) ltac:(lra) He) as [N HN]. exists N. intros k Hk. rewrite SK. specialize (HN (S k) ltac:(lia)). lra.
  - intros k. rewrite SK. apply S1.
  - unfold mean_aim. cbn. lra.
  - intros gamma net target val grads sub f r n ws os DATA FO. set (sch := fun c => Rpower (1/2) (c + 1)) in *. destruct (@sched_run 1 1 _ [1] gamma net target val grads sub f None [0] _ DATA sch r n 0%nat ws os _ (@inv_start 1 1 _ [1] gamma net target val grads f None [0] _ DATA sch) FO) as (y' & R' & (f1 & th & E & F1 & L1) & LW & _ & V).
    exists y', th. eexists. split; [exact R'|]. split; [rewrite E; exact F1|]. destruct DATA as (HA & _ & _ & TB & _ & _ & F & _). rewrite (tab_call (table_tabular TB) th L1) by lia. split; [reflexivity|]. specialize (V 0%nat 0%nat ltac:(lia) ltac:(lia)). rewrite E in V at 1. unfold q_params in V at 1. cbn [y_learner l_func] in V. rewrite F1 in V. change (tab (wrap th)) with th in V. rewrite V.
    unfold scheduled, new_learner, q_params. cbn [y_learner l_func]. rewrite F. change (tq 1 (tab (Node [0%nat] [Node [0%nat] [Leaf [0]]])) 0 0) with 0.
    destruct (@track_constant (rate sch r 0 0) (fun _ => 1) 1 ws 0%nat 0 (fun _ _ => eq_refl)) as (p & -> & EP). assert (P1 : 1/4 <= p); [|lra]. rewrite EP. eapply Rle_trans; [apply (halves (length ws))|]. apply prod_le. intros j. unfold rate. unfold sch at 1. rewrite SK. specialize (S1 j). destruct (_ && _)%bool; lra.
Qed.
Print Assumptions C132_decay_refuted.

(** * Cases *)

Lemma nat_above : forall x, exists n, x < INR n.
Proof.
  intros x. destruct (archimed x) as [A _]. destruct (Z_le_gt_dec 0 (up x)) as [P|N].
  - exists (Z.to_nat (up x)). rewrite INR_IZR_INZ, Z2Nat.id by exact P. lra.
  - exists 0%nat. cbn [INR]. assert (Z := IZR_lt (up x) 0 ltac:(lia)). lra.
Qed.
(** Sums of 1 / (k + 1). *)
Definition inverse (c : R) : R := 1 / (c + 1).
Lemma harmonic : forall n, ln (INR n + 1) <= total (map (fun k => inverse (INR k)) (seq 0 n)).
Proof.
  induction n as [|n IH]; [cbn; rewrite Rplus_0_l, ln_1; unfold total; cbn; lra|]. rewrite seq_S, map_app, total_app, S_INR. cbn [map plus]. rewrite total_cons. change (total []) with 0. assert (P := pos_INR n). unfold inverse at 2. set (x := INR n + 1) in *.
  assert (X : ln (x + 1) - ln x <= 1 / x); [|lra]. assert (E : x + 1 = x * (1 + 1 / x)) by (field; unfold x; lra). assert (I : 0 < 1 / x) by (apply Rdiv_lt_0_compat; unfold x; lra). rewrite E, ln_mult by (unfold x in *; lra). assert (Z : ln (1 + 1 / x) <= 1 / x); [|lra].
  rewrite <- (ln_exp (1 / x)) at 2. left. apply ln_increasing; [lra|]. apply exp_ineq1. lra.
Qed.
Lemma harmonic_big : forall M, exists n, M <= total (map (fun k => inverse (INR k)) (seq 0 n)).
Proof.
  intros M. destruct (nat_above (exp M)) as [n Hn]. exists n. eapply Rle_trans; [|apply harmonic]. rewrite <- (ln_exp M) at 1. left. apply ln_increasing; [apply exp_pos|lra].
Qed.
Lemma inverse_vanishing : vanishing inverse.
Proof.
  split.
  - intros k. assert (P := pos_INR k). unfold inverse. split; [left; apply Rdiv_lt_0_compat; lra|]. apply (Rmult_le_reg_r (INR k + 1)); [lra|]. unfold Rdiv. rewrite Rmult_assoc, Rinv_l by lra. lra.
  - intros e He. destruct (nat_above (1 / e)) as [K HK]. exists K. intros k Hk. apply le_INR in Hk. unfold inverse. assert (P := pos_INR k). assert (I : 0 < 1 / e) by (apply Rdiv_lt_0_compat; lra). apply (Rmult_le_reg_r (INR k + 1)); [lra|]. replace (1 / (INR k + 1) * (INR k + 1)) with (e * (1 / e)) by (field; lra). apply Rmult_le_compat_l; lra.
Qed.
Definition alternate (k : nat) : nat * nat := (0%nat, Nat.modulo k 2).
Lemma alternate_enough : forall a, (a < 2)%nat -> enough inverse alternate 0 a.
Proof.
  intros a Ha M. destruct (harmonic_big (2 * M)) as [n Hn]. exists (n * 2)%nat. assert (A : total (map (fun k => inverse (INR k)) (seq 0 n)) <= 2 * total (map (rate inverse alternate 0 a) (seq 0 (n * 2)))); [|lra]. clear Hn M. induction n as [|n IH]; [cbn; unfold total; cbn; lra|].
  change (S n * 2)%nat with (S (S (n * 2))). rewrite !seq_S, !map_app, !total_app. cbn [map plus]. rewrite !total_cons. change (total []) with 0.
  assert (R0 : rate inverse alternate 0 a (n * 2) = if Nat.eqb 0 a then inverse (INR (n * 2)) else 0) by (unfold rate, alternate; cbn [fst snd]; rewrite Nat.mod_mul by lia; reflexivity).
  assert (R1 : rate inverse alternate 0 a (S (n * 2)) = if Nat.eqb 1 a then inverse (INR (S (n * 2))) else 0) by (unfold rate, alternate; cbn [fst snd]; replace (S (n * 2)) with (1 + n * 2)%nat by lia; rewrite Nat.mod_add by lia; reflexivity).
  rewrite R0, R1, S_INR, mult_INR. change (INR 2) with 2. assert (P := pos_INR n). unfold inverse in *. assert (B1 : 2 * (1 / (INR n * 2 + 1 + 1)) = 1 / (INR n + 1)) by (field; lra).
  assert (B0 : 1 / (INR n * 2 + 1 + 1) <= 1 / (INR n * 2 + 1)) by (apply Rmult_le_compat_l; [lra|]; apply Rinv_le_contravar; lra). destruct a as [|[|a]]; [| |lia]; cbn [Nat.eqb]; lra.
Qed.
Definition bandit_f : func := mkFunc 0 (wrap [0; 0]) (Node [] []) 0.
Definition risky_aim (w s a : nat) : R := match a with O => 1/4 | _ => if Nat.eqb w 0 then 1 else -1 end.
(** Pulling the two arms of the bandit [risky] alternately, with learning rate 1 / (k + 1). *)
Example C132_reliable_ex : noisy_data 1 2 risky [1/2; 1/2] (1/2) (table1 1) (target_q 2 (table1 1)) (by_max 2) (analytic 1 2 (fun y h => h - y) (target_q 2 (table1 1))) bandit_f None [0; 0] risky_aim /\ vanishing inverse /\
  (forall s a, (s < 1)%nat -> (a < 2)%nat -> enough inverse alternate s a) /\ mean_aim [1/2; 1/2] risky_aim 0 1 < mean_aim [1/2; 1/2] risky_aim 0 0 /\ variance [1/2; 1/2] risky_aim 0 1 = 1 /\
  forall n, exists os, forall ws, noise_list 2 n ws -> follows 1 2 2 risky (1/2) (one_by_one alternate n) ws (os ws).
Proof.
  split; [|split; [exact inverse_vanishing|split; [|split; [|split]]]].
  - split; [lia|]. split; [exact half_dist|]. split; [exact risky_closed|]. split; [now left|]. split; [constructor|]. split; [|repeat split].
    apply (@analytic_noisy 1 2 2 (fun y h => h - y) (target_q 2 (table1 1)) (table1 1) mse1 risky (1/2) (by_max 2)); [lia|apply table1_tabular|exact mse_deriv|apply target_q_sound; [lia|apply table1_tabular]].
  - intros s a Hs Ha. assert (E : s = 0%nat) by lia. subst s. now apply alternate_enough.
  - unfold mean_aim, total. cbn. lra.
  - unfold variance, mean_aim, total. cbn. lra.
  - intros n. exists (row_prog 2 risky (1/2) (map alternate (seq 0 n))). intros ws HW. replace (one_by_one alternate n) with (row_decisions (map alternate (seq 0 n))) by (unfold one_by_one, row_decisions; rewrite map_map; reflexivity). apply row_follows; [exact risky_closed| |now rewrite map_length, seq_length].
    intros s a I. apply in_map_iff in I. destruct I as (k & E & _). injection E as <- <-. split; [lia|exact (@Nat.mod_upper_bound k 2 ltac:(lia))].
Qed.
(** With a target network, in an environment that never ends. *)
Definition endless (w s a : nat) : nat * R * bool := (0%nat, coin w, false).
Definition frozen : func := mkFunc 0 (wrap [2; 0]) (Node [] []) 0.
Example C132_settles_ex : noisy_data 1 2 endless [1/2; 1/2] (1/2) (table1 1) (target_q 2 (table1 1)) (by_max 2) (analytic 1 2 (fun y h => h - y) (target_q 2 (table1 1))) bandit_f (Some frozen) [0; 0] (fun w _ _ => coin w + 1) /\
  mean_aim [1/2; 1/2] (fun w _ _ => coin w + 1) 0 0 = 1.
Proof.
  assert (TT := @table1_tabular 1 2). split; [|unfold mean_aim, total, coin; cbn; lra]. split; [lia|]. split; [exact half_dist|]. split; [intros w Hw s a Hs Ha; cbn; lia|]. split; [now left|]. split; [constructor|]. split; [|split; [reflexivity|split; [reflexivity|]]].
  - apply (@analytic_noisy 1 2 2 (fun y h => h - y) (target_q 2 (table1 1)) (table1 1) mse1 endless (1/2) (by_max 2)); [lia|exact TT|exact mse_deriv|apply target_q_sound; [lia|exact TT]].
  - exists [2; 0], (fun s a => match a with O => 2 | _ => 0 end). split; [reflexivity|]. split; [reflexivity|]. split.
    + intros s a Hs Ha. rewrite (tab_call TT [2; 0]) by auto. f_equal. assert (E : s = 0%nat) by lia. subst s. destruct a as [|[|a]]; [| |lia]; reflexivity.
    + intros w s a Hw Hs Ha. exists 2. split; [apply two_max; cbn; lra|]. unfold reward, ends, endless. cbn [fst snd]. lra.
Qed.
(** The average of the rewards of one arm. *)
Example C132_average_ex : (forall k, inverse (INR k) = 1 / (INR k + 1)) /\ follows 1 2 2 risky (1/2) (one_by_one (fun _ => (0, 1)%nat) 4) [0; 1; 0; 0]%nat (row_prog 2 risky (1/2) (repeat (0, 1)%nat 4) [0; 1; 0; 0]%nat) /\
  total (map (fun w => risky_aim w 0 1) [0; 1; 0; 0]%nat) / INR 4 = 1/2.
Proof.
  split; [reflexivity|]. split; [|unfold total; cbn; field]. change (one_by_one (fun _ => (0, 1)%nat) 4) with (row_decisions (repeat (0, 1)%nat 4)). apply row_follows; [exact risky_closed| |].
  - intros s a I. apply repeat_spec in I. injection I as -> ->. lia.
  - split; [reflexivity|]. intros w [<-|[<-|[<-|[<-|[]]]]]; auto.
Qed.
(** The error after two updates with learning rates 1 and 1/2 on targets of variance 1 is half the variance. *)
Example C132_mean_square_ex : square_error (rate inverse (fun _ => (0, 1)%nat) 0 1) 1 7 2 = 1/2.
Proof. unfold rate, inverse. cbn. field. Qed.
Example C132_decay_ex : exists grads, noisy_data 1 1 (fun _ _ _ => (0%nat, 1, true)) [1] (1/2) (table1 1) (target_q 1 (table1 1)) (by_max 1) grads (mkFunc 0 (wrap [0]) (Node [] []) 0) None [0] (fun _ _ _ => 1) /\
  forall n, exists os, follows 1 1 1 (fun _ _ _ => (0%nat, 1, true)) (1/2) (one_by_one (fun _ => (0, 0)%nat) n) (repeat 0%nat n) os.
Proof.
  assert (TT := @table1_tabular 1 1). assert (CL : all_closed 1 1 1 (fun _ _ _ => (0%nat, 1, true))) by (intros w Hw s a Hs Ha; cbn; lia). exists (analytic 1 1 (fun y h => h - y) (target_q 1 (table1 1))). split.
  - split; [lia|]. split; [split; [intros x [<-|[]]; lra|cbn; lra]|]. split; [exact CL|]. split; [now left|]. split; [constructor|]. split; [|repeat split].
    apply (@analytic_noisy 1 1 1 (fun y h => h - y) (target_q 1 (table1 1)) (table1 1) mse1 (fun _ _ _ => (0%nat, 1, true)) (1/2) (by_max 1)); [lia|exact TT|exact mse_deriv|apply target_q_sound; [lia|exact TT]].
  - intros n. exists (row_prog 1 (fun _ _ _ => (0%nat, 1, true)) (1/2) (map (fun _ => (0, 0)%nat) (seq 0 n)) (repeat 0%nat n)). replace (one_by_one (fun _ => (0, 0)%nat) n) with (row_decisions (map (fun _ => (0, 0)%nat) (seq 0 n))) by (unfold one_by_one, row_decisions; rewrite map_map; reflexivity). apply row_follows; [exact CL| |].
    + intros s a I. apply in_map_iff in I. destruct I as (k & E & _). injection E as <- <-. lia.
    + rewrite map_length, seq_length. split; [apply repeat_length|]. intros w I. apply repeat_spec in I. lia.
Qed.
