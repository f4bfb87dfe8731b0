(** C127: a model-based agent, SuccessorStateQ(v, p, r, gamma) with tables v, p, r. *)
From Coq Require Import List Lia Bool Arith Reals Lra.
From Verif Require Import PyCommon CommonProofs UtilsModel UtilsSpec UtilsProofs2 UtilsProofs3 WrappersProofs DistModel DistSpec DistProofs DistProofs2 DistProofs3 LossModel LossSpec LossProofs QModel QProofs QProps TDModel TDSpec TDProofs TDProofs2 TDProofs3 TDProofs4 TracerModel CoreModel CoreSpec CoreProofs CoreProofs2 StochModel LearnModel LearnSpec LearnProofs LearnProofs2 LearnProofs3 LearnProofs5 NoiseProofs2 MbModel MbSpec MbProofs MbProofs2 MbProofs3 MbProofs4.
Import ListNotations.
Set Implicit Arguments.
Local Open Scope R_scope.

Lemma setting_ne : forall nS rows, (1 <= nS)%nat -> every_state nS rows -> rows <> [].
Proof. intros nS rows HS ES ->. destruct (ES 0%nat HS) as (x & [] & _). Qed.

(** ** Concrete data: two states, two actions, every pair recorded, no episode ends. *)
Definition ex_rows : list trans := [mk_t 0 0 1 false 0 1; mk_t 0 1 0 false 1 2; mk_t 1 0 2 false 1 1; mk_t 1 1 0 false 0 (1/2)].
Definition ex_b : fbatch nat := mk_fb [0;0;1;1]%nat (map (one_hot 2) [0;1;0;1]%nat) [1;2;1;1/2] (mk_tb [1;0;2;0] [1/2;1/2;1/2;1/2] [0;1;1;0]%nat [[];[];[];[]]).
(** Gradients for the squared loss. *)
Definition sq_gp (nS nA : nat) (rows : list trans) : fbatch nat -> list R -> list R := fun _ w => map (cells_grad (fun y h => h - y) (INR (length rows) * INR nS) (p_cells nS nA rows) w) (seq 0 (length w)).
Definition sq_gr (nA : nat) (rows : list trans) : fbatch nat -> list R -> list R := fun _ w => map (cells_grad (fun y h => h - y) (INR (length rows)) (r_cells nA rows) w) (seq 0 (length w)).
Definition sq_gv (gamma : R) (rows : list trans) : fbatch nat -> list R -> list R := fun _ w => map (cells_grad (fun y h => h - y) (INR (length rows)) (v_cells gamma rows w) w) (seq 0 (length w)).
Lemma sq_grads : forall nS nA gamma rows b, (1 <= nS)%nat -> bounded nS nA rows -> records nA gamma rows b -> rows <> [] -> grads_ok nS nA mse1 mse1 (sq_gp nS nA rows) (sq_gr nA rows) (sq_gv gamma rows) b.
Proof.
  intros nS nA gamma rows b HS HB HR NE. split; [|split]; intros w L.
  - eapply gradient_ext; [|apply (@cells_gradient mse1 _ _ (p_cells nS nA rows) w mse_deriv); intros c Hc; rewrite L; eapply p_pos; eauto]. intros h _. cbv beta. now rewrite (@p_loss_eq nS nA gamma rows b HB HR NE HS).
  - eapply gradient_ext; [|apply (@cells_gradient mse1 _ _ (r_cells nA rows) w mse_deriv); intros c Hc; rewrite L; eapply r_pos; eauto]. intros h _. cbv beta. now rewrite (@r_loss_eq nS nA gamma rows b HB HR NE).
  - eapply gradient_ext; [|apply (@cells_gradient mse1 _ _ (v_cells gamma rows w) w mse_deriv); intros c Hc; rewrite L; eapply v_pos; eauto]. intros h _. cbv beta. unfold mse. now rewrite (@v_loss_eq nS nA gamma rows b HB HR NE).
Qed.
Lemma cw_id : forall s a r d n w, 1/10 <= w <= 10 -> cw (mk_t s a r d n w) = w.
Proof. intros. unfold cw. cbn. rewrite Rmin_left by lra. apply Rmax_right. lra. Qed.
Example C127_ex_setting : setting 2 2 (1/2) ex_rows ex_b mse1 mse1 (sq_gp 2 2 ex_rows) (sq_gr 2 ex_rows) (sq_gv (1/2) ex_rows) 0 2 (1/2) (1/4) (1/2).
Proof.
  assert (HB : bounded 2 2 ex_rows) by (intros x Hx; cbn in Hx; repeat (destruct Hx as [<-|Hx]; [cbn; lia|]); destruct Hx).
  assert (RF : forall lr, 0 < lr <= 1/2 -> rate_fits lr ex_rows) by (intros lr0 H; split; [lra|]; intros x Hx; cbn in Hx; repeat (destruct Hx as [<-|Hx]; [rewrite cw_id by lra; lra|]); destruct Hx).
  split; [lia|]. split; [lia|]. split; [lra|]. split; [exact HB|]. split; [intros s Hs; destruct s as [|[|s]]; [exists (mk_t 0 0 1 false 0 1); cbn; auto|exists (mk_t 1 0 2 false 1 1); cbn; auto|lia]|].
  assert (HR : records 2 (1/2) ex_rows ex_b) by (repeat split). split; [exact HR|]. split; [intros x Hx; cbn in Hx; repeat (destruct Hx as [<-|Hx]; [cbn; lra|]); destruct Hx|]. split; [now left|]. split; [now left|].
  split; [apply sq_grads; auto; discriminate|]. split; [apply RF; lra|]. split; apply RF; lra.
Qed.
Definition ex_learner (lr : R) (w : list R) : learner := mkLearner KTD (mkFunc 7 (wrap w) (Node [] []) 0) (sgd lr) (Node [] []).
Definition ex_agent : agent := mk_agent (ex_learner (1/2) [0;0]) (ex_learner (1/4) (repeat 0 8)) (ex_learner (1/2) (repeat 0 4)).
Example C127_ex_tables : tables 2 2 (1/2) (1/4) (1/2) ex_agent [0;0] (repeat 0 8) (repeat 0 4) /\ starts 2 2 0 2 (repeat 0 8) (repeat 0 4).
Proof.
  split; [repeat split|]. split; [intros s a k Hs Ha Hk|intros s a Hs Ha]; rewrite nth_repeat; lra.
Qed.

(** ** The values of a data set exist and are unique. *)
Theorem C127_values : forall nS nA gamma rows, 0 <= gamma < 1 -> bounded nS nA rows -> every_state nS rows ->
  exists v, data_values nS gamma rows v /\ forall v', data_values nS gamma rows v' -> forall s, (s < nS)%nat -> v' s = v s.
Proof.
  intros nS nA gamma rows Hg HB ES. destruct (@values_exist nS nA gamma rows HB Hg ES) as [v H]. exists v. split; auto. intros v' H' s Hs. exact (@values_unique nS nA gamma rows HB Hg ES v' v H' H s Hs).
Qed.
Print Assumptions C127_values.
Example C127_ex_values : exists v, data_values 2 (1/2) ex_rows v.
Proof. destruct C127_ex_setting as (_ & _ & Hg & HB & ES & _). destruct (@C127_values 2 2 (1/2) ex_rows Hg HB ES) as (v & H & _). now exists v. Qed.

(** ** The tables after any program of updates on the batch, in any order. *)
Theorem C127_tables : forall nS nA gamma rows b lp lr gp gr gv lo hi lrv lrp lrr, setting nS nA gamma rows b lp lr gp gr gv lo hi lrv lrp lrr ->
  forall v y wv wp wr D os, data_values nS gamma rows v -> tables nS nA lrv lrp lrr y wv wp wr -> starts nS nA lo hi wp wr -> (forall s, (s < nS)%nat -> Rabs (nth s wv 0 - v s) <= D) -> (forall o, In o os -> on b o) ->
  exists y' wv' wp' wr', arun nS nA lp lr mse gp gr gv y os = (y', Ok tt) /\ tables nS nA lrv lrp lrr y' wv' wp' wr' /\
    (forall s a k, (s < nS)%nat -> (a < nA)%nat -> (k < nS)%nat -> nth ((s * nA + a) * nS + k) wp' 0 = wmean (at_sa s a) (hit k) rows +
       (1 - lrp * wsum (at_sa s a) (fun _ => 1) rows / (INR (length rows) * INR nS)) ^ count is_p os * (nth ((s * nA + a) * nS + k) wp 0 - wmean (at_sa s a) (hit k) rows)) /\
    (forall s a, (s < nS)%nat -> (a < nA)%nat -> nth (s * nA + a) wr' 0 = wmean (at_sa s a) t_r rows +
       (1 - lrr * wsum (at_sa s a) (fun _ => 1) rows / INR (length rows)) ^ count is_r os * (nth (s * nA + a) wr 0 - wmean (at_sa s a) t_r rows)) /\
    (forall s, (s < nS)%nat -> Rabs (nth s wv' 0 - v s) <= (1 - lrv * (1 - gamma) / (10 * INR (length rows))) ^ count is_v os * D).
Proof.
  intros nS nA gamma rows b lp lr gp gr gv lo hi lrv lrp lrr (HS & HA & Hg & HB & ES & HR & Rew & Qp & Qr & HG & Fv & Fp & Fr) v y wv wp wr D os VH HT [SP SR] HD HO.
  assert (D0 : 0 <= D) by (eapply Rle_trans; [apply Rabs_pos|apply (HD 0%nat); lia]).
  exact (@run_ok nS nA gamma rows b HS HB HR (setting_ne HS ES) lp lr gp gr gv HG lo hi lrv lrp lrr Qp Qr Fv Fp Fr Rew Hg ES v VH os y wv wp wr D HO HT SP SR D0 HD).
Qed.
Print Assumptions C127_tables.
Example C127_ex_run : exists y', arun 2 2 mse1 mse1 mse (sq_gp 2 2 ex_rows) (sq_gr 2 ex_rows) (sq_gv (1/2) ex_rows) ex_agent [AV ex_b; AP ex_b; AR ex_b; AV ex_b] = (y', Ok tt).
Proof.
  destruct C127_ex_values as [v HV]. destruct C127_ex_tables as [T S0]. destruct (@C127_tables 2 2 _ _ _ _ _ _ _ _ _ _ _ _ _ C127_ex_setting v ex_agent _ _ _ (bound 2 1 (fun s _ => nth s [0;0] 0 - v s)) [AV ex_b; AP ex_b; AR ex_b; AV ex_b] HV T S0) as (y' & _ & _ & _ & E & _); [| |now exists y'].
  - intros s Hs. exact (@bound_ok 2 1 (fun s _ => nth s [0;0] 0 - v s) s 0%nat Hs (le_n 1)).
  - intros o Ho. cbn in Ho. unfold on. repeat (destruct Ho as [<-|Ho]; [auto|]). destruct Ho.
Qed.

(** ** The composite q-function converges. *)
Theorem C127_converges : forall nS nA gamma rows b lp lr gp gr gv lo hi lrv lrp lrr, setting nS nA gamma rows b lp lr gp gr gv lo hi lrv lrp lrr ->
  forall v y wv wp wr, data_values nS gamma rows v -> tables nS nA lrv lrp lrr y wv wp wr -> starts nS nA lo hi wp wr -> forall eps, 0 < eps ->
  exists n0, forall os, (forall o, In o os -> on b o) -> (n0 <= count is_v os)%nat -> (n0 <= count is_p os)%nat -> (n0 <= count is_r os)%nat ->
  exists y', arun nS nA lp lr mse gp gr gv y os = (y', Ok tt) /\
    forall s, (s < nS)%nat -> exists zs, ag_call_s nS nA gamma y' s = Ok zs /\ length zs = nA /\
    forall a, (a < nA)%nat -> ag_call_a nS nA gamma y' s a = Ok (nth a zs 0) /\
      ((exists x, In x rows /\ t_s x = s /\ t_a x = a) -> Rabs (nth a zs 0 - wmean (at_sa s a) (fun x => t_r x + gamma * v (t_next x)) rows) <= eps).
Proof.
  intros nS nA gamma rows b lp lr gp gr gv lo hi lrv lrp lrr (HS & HA & Hg & HB & ES & HR & Rew & Qp & Qr & HG & Fv & Fp & Fr) v y wv wp wr VH HT [SP SR] eps He.
  destruct (@conv nS nA gamma rows b HS HB HR (setting_ne HS ES) lp lr gp gr gv HG lo hi lrv lrp lrr Qp Qr Fv Fp Fr Rew Hg ES v VH y wv wp wr eps HT SP SR He) as [n0 H].
  exists n0. intros os HO K1 K2 K3. destruct (H os HO K1 K2 K3) as (y' & wv' & wp' & wr' & E & T & C). exists y'. split; [exact E|]. intros s Hs. exists (map (q_tab nS nA gamma wv' wp' wr' s) (seq 0 nA)). split; [eapply call_s; eauto|]. split; [now rewrite map_length, seq_length|].
  intros a Ha. assert (N : nth a (map (q_tab nS nA gamma wv' wp' wr' s) (seq 0 nA)) 0 = q_tab nS nA gamma wv' wp' wr' s a) by (rewrite (@nth_map_any _ _ _ (seq 0 nA) a 0 0%nat) by (now rewrite seq_length); now rewrite seq_nth).
  rewrite N. split; [eapply call_a; eauto|]. intros (x & Hx & E1 & E2). apply (C s a Hs Ha). exists x. split; auto. unfold at_sa. now rewrite E1, E2, !Nat.eqb_refl.
Qed.
Print Assumptions C127_converges.
Example C127_ex_converges : exists n0, forall os, (forall o, In o os -> on ex_b o) -> (n0 <= count is_v os)%nat -> (n0 <= count is_p os)%nat -> (n0 <= count is_r os)%nat ->
  exists y', arun 2 2 mse1 mse1 mse (sq_gp 2 2 ex_rows) (sq_gr 2 ex_rows) (sq_gv (1/2) ex_rows) ex_agent os = (y', Ok tt).
Proof.
  destruct C127_ex_values as [v HV]. destruct C127_ex_tables as [T S0]. destruct (@C127_converges 2 2 _ _ _ _ _ _ _ _ _ _ _ _ _ C127_ex_setting v ex_agent _ _ _ HV T S0 (1/100) ltac:(lra)) as [n0 H]. exists n0. intros os A B C D. destruct (H os A B C D) as (y' & E & _). now exists y'.
Qed.

(** ** Without ends of episodes the limits are the action values of the policy that the data shows: v(s) is their mean, with the share of each action. *)
Theorem C127_own_policy : forall nS nA gamma rows v, bounded nS nA rows -> (forall x, In x rows -> t_done x = false) -> data_values nS gamma rows v -> forall s, (s < nS)%nat ->
  v s = total (map (fun a => wsum (at_sa s a) (fun _ => 1) rows / wsum (at_s s) (fun _ => 1) rows * wmean (at_sa s a) (fun x => t_r x + gamma * v (t_next x)) rows) (seq 0 nA)).
Proof.
  intros nS nA gamma rows v HB ND VH s Hs. rewrite (VH s Hs) at 1. rewrite (@wmean_ext _ _ (fun x => t_r x + gamma * v (t_next x))) by (intros x Hx _; now rewrite ND). now apply own_policy with nS.
Qed.
Print Assumptions C127_own_policy.
Example C127_ex_no_ends : forall x, In x ex_rows -> t_done x = false.
Proof. intros x Hx. cbn in Hx. repeat (destruct Hx as [<-|Hx]; [reflexivity|]). destruct Hx. Qed.

(** ** Acting greedily on the learnt q-function is at least as good, in every state, as the policy that the data shows. *)
Theorem C127_improves : forall nS nA gamma rows b lp lr gp gr gv lo hi lrv lrp lrr, setting nS nA gamma rows b lp lr gp gr gv lo hi lrv lrp lrr -> (forall x, In x rows -> t_done x = false) -> every_pair nS nA rows ->
  forall v y wv wp wr, data_values nS gamma rows v -> tables nS nA lrv lrp lrr y wv wp wr -> starts nS nA lo hi wp wr -> forall eps, 0 < eps ->
  exists n0, forall os, (forall o, In o os -> on b o) -> (n0 <= count is_v os)%nat -> (n0 <= count is_p os)%nat -> (n0 <= count is_r os)%nat ->
  exists y', arun nS nA lp lr mse gp gr gv y os = (y', Ok tt) /\ forall g u, greedy_for nS nA (ag_call_s nS nA gamma y') g -> data_values nS gamma (filter (follows g) rows) u -> forall s, (s < nS)%nat -> v s - eps <= u s.
Proof.
  intros nS nA gamma rows b lp lr gp gr gv lo hi lrv lrp lrr SE ND EP v y wv wp wr VH HT ST eps He. assert (SE' := SE). destruct SE' as (HS & HA & Hg & HB & ES & _).
  assert (E1 : 0 < eps * (1 - gamma) / 2) by (assert (0 < eps * (1 - gamma)) by (apply Rmult_lt_0_compat; lra); lra).
  destruct (@C127_converges nS nA gamma rows b lp lr gp gr gv lo hi lrv lrp lrr SE v y wv wp wr VH HT ST _ E1) as [n0 H]. exists n0. intros os HO K1 K2 K3. destruct (H os HO K1 K2 K3) as (y' & E & C). exists y'. split; [exact E|]. intros g u GR UH s Hs.
  assert (X : v s - eps * (1 - gamma) / (1 - gamma) <= u s).
  { apply (@improves nS nA gamma rows v u g (eps * (1 - gamma)) HS HB Hg EP HA ND VH UH); auto. intros t Ht. destruct (GR t Ht) as (Ga & z & Ez & _ & M). split; auto. intros a Ha. destruct (C t Ht) as (zs & Ezs & _ & Cz). rewrite Ez in Ezs. injection Ezs as <-.
    destruct (Cz a Ha) as [_ A1]. destruct (Cz _ Ga) as [_ A2]. specialize (A1 (EP t a Ht Ha)). specialize (A2 (EP t _ Ht Ga)). specialize (M a Ha). unfold q_lim. unfold Rabs in A1, A2. destruct (Rcase_abs _), (Rcase_abs _); lra. }
  replace (eps * (1 - gamma) / (1 - gamma)) with eps in X by (field; lra). exact X.
Qed.
Print Assumptions C127_improves.
Example C127_ex_pairs : every_pair 2 2 ex_rows.
Proof.
  intros s a Hs Ha. destruct s as [|[|s]]; [| |lia]; (destruct a as [|[|a]]; [| |lia]); [exists (mk_t 0 0 1 false 0 1)|exists (mk_t 0 1 0 false 1 2)|exists (mk_t 1 0 2 false 1 1)|exists (mk_t 1 1 0 false 0 (1/2))]; cbn; auto 6.
Qed.

(** ** Ends of episodes: the tracer records the state itself as the next state, and SuccessorStateQ goes on from there. *)
Theorem C127_recorded : forall (S A : Type) (x : step S A) r gamma, 0 <= gamma <= 1 -> st_logp x <= 0 -> 0 < st_w x -> st_wnative x = true ->
  exists t z, nstep_pop 1 gamma false (fst (nstep_add (@nstep_reset S A) x r true)) = (t, Ok z) /\ x_s z = st_s x /\ x_s_next z = st_s x /\ x_rn z = r /\ x_in z = 0.
Proof.
  intros S A x r gamma Hg Hl Hw Hn. unfold nstep_add, nstep_reset, nstep_pop, nstep_bool, nstep_len, from_single. cbn [n_s n_r n_done length andb negb Nat.eqb app fst orb Nat.leb]. rewrite Hn.
  destruct (Rle_dec (st_logp x) 0); [|lra]. rewrite pow_1. destruct (Rle_dec 0 gamma); [|lra]. destruct (Rle_dec gamma 1); [|lra]. destruct (Rlt_dec 0 (st_w x)); [|lra]. eexists. eexists. split; [reflexivity|]. cbn. repeat split; try ring. 
Qed.
Print Assumptions C127_recorded.
Example C127_ex_recorded : exists x : step nat nat, st_logp x <= 0 /\ 0 < st_w x /\ st_wnative x = true.
Proof. exists (mkStep 3%nat 1%nat (-1) 1 true). cbn. repeat split; lra. Qed.
Theorem C127_terminal : forall nS nA gamma rows b lp lr gp gr gv lo hi lrv lrp lrr, setting nS nA gamma rows b lp lr gp gr gv lo hi lrv lrp lrr ->
  forall v y wv wp wr s a, data_values nS gamma rows v -> tables nS nA lrv lrp lrr y wv wp wr -> starts nS nA lo hi wp wr -> (s < nS)%nat -> (a < nA)%nat -> (exists x, In x rows /\ t_s x = s /\ t_a x = a) ->
  (forall x, In x rows -> t_s x = s -> t_a x = a -> t_done x = true /\ t_next x = s) -> forall eps, 0 < eps ->
  exists n0, forall os, (forall o, In o os -> on b o) -> (n0 <= count is_v os)%nat -> (n0 <= count is_p os)%nat -> (n0 <= count is_r os)%nat ->
  exists y' z, arun nS nA lp lr mse gp gr gv y os = (y', Ok tt) /\ ag_call_a nS nA gamma y' s a = Ok z /\ Rabs (z - (wmean (at_sa s a) t_r rows + gamma * v s)) <= eps.
Proof.
  intros nS nA gamma rows b lp lr gp gr gv lo hi lrv lrp lrr SE v y wv wp wr s a VH HT ST Hs Ha VIS TE eps He. destruct (@C127_converges nS nA gamma rows b lp lr gp gr gv lo hi lrv lrp lrr SE v y wv wp wr VH HT ST _ He) as [n0 H]. exists n0. intros os HO K1 K2 K3. destruct (H os HO K1 K2 K3) as (y' & E & C).
  destruct (C s Hs) as (zs & _ & _ & Z). destruct (Z a Ha) as [E1 E2]. exists y', (nth a zs 0). split; auto. split; auto. specialize (E2 VIS).
  replace (wmean (at_sa s a) t_r rows + gamma * v s) with (wmean (at_sa s a) (fun x => t_r x + gamma * v (t_next x)) rows); auto.
  rewrite (@wmean_ext _ _ (fun x => t_r x + gamma * v s)). 2:{ intros x Hx P. unfold at_sa in P. apply andb_true_iff in P. destruct P as [P1 P2]. apply Nat.eqb_eq in P1, P2. destruct (TE x Hx P1 P2) as [_ ->]. reflexivity. }
  rewrite wmean_plus. f_equal. unfold wmean. rewrite (@wsum_const (at_sa s a) (gamma * v s)). destruct VIS as (x & Hx & X1 & X2). pose proof (weight_in (at_sa s a) rows x Hx ltac:(unfold at_sa; now rewrite X1, X2, !Nat.eqb_refl)). field. lra.
Qed.
Print Assumptions C127_terminal.

(** ** Greedy actions are wrong in episodic tasks: whatever the updates, from some number on. *)
Definition ep_rows : list trans := [mk_t 0 0 1 true 0 1; mk_t 0 1 0 false 1 1; mk_t 1 0 3 true 1 1].
Definition ep_b : fbatch nat := mk_fb [0;0;1]%nat (map (one_hot 2) [0;1;0]%nat) [1;1;1] (mk_tb [1;0;3] [0;1/2;0] [0;1;1]%nat [[];[];[]]).
Example C127_ex_ends : setting 2 2 (1/2) ep_rows ep_b mse1 mse1 (sq_gp 2 2 ep_rows) (sq_gr 2 ep_rows) (sq_gv (1/2) ep_rows) 0 3 (1/2) (1/2) (1/2).
Proof.
  assert (HB : bounded 2 2 ep_rows) by (intros x Hx; cbn in Hx; repeat (destruct Hx as [<-|Hx]; [cbn; lia|]); destruct Hx).
  assert (RF : rate_fits (1/2) ep_rows) by (split; [lra|]; intros x Hx; cbn in Hx; repeat (destruct Hx as [<-|Hx]; [rewrite cw_id by lra; lra|]); destruct Hx).
  split; [lia|]. split; [lia|]. split; [lra|]. split; [exact HB|]. split; [intros s Hs; destruct s as [|[|s]]; [exists (mk_t 0 0 1 true 0 1); cbn; auto|exists (mk_t 1 0 3 true 1 1); cbn; auto|lia]|].
  assert (HR : records 2 (1/2) ep_rows ep_b) by (repeat split). split; [exact HR|]. split; [intros x Hx; cbn in Hx; repeat (destruct Hx as [<-|Hx]; [cbn; lra|]); destruct Hx|]. split; [now left|]. split; [now left|].
  split; [apply sq_grads; auto; discriminate|]. auto.
Qed.
Theorem C127_episodes_refuted : exists rows b v, (forall x, In x rows -> t_done x = true -> t_next x = t_s x) /\ data_values 2 (1/2) rows v /\
  wmean (at_sa 0 0) (fun x => t_r x + if t_done x then 0 else 1/2 * v (t_next x)) rows = 1 /\ wmean (at_sa 0 1) (fun x => t_r x + if t_done x then 0 else 1/2 * v (t_next x)) rows = 3/2 /\
  (exists gp gr gv, setting 2 2 (1/2) rows b mse1 mse1 gp gr gv 0 3 (1/2) (1/2) (1/2)) /\
  forall lp lr gp gr gv lo hi lrv lrp lrr y wv wp wr, setting 2 2 (1/2) rows b lp lr gp gr gv lo hi lrv lrp lrr -> tables 2 2 lrv lrp lrr y wv wp wr -> starts 2 2 lo hi wp wr ->
  exists n0, forall os, (forall o, In o os -> on b o) -> (n0 <= count is_v os)%nat -> (n0 <= count is_p os)%nat -> (n0 <= count is_r os)%nat ->
  exists y', arun 2 2 lp lr mse gp gr gv y os = (y', Ok tt) /\ forall g, greedy_for 2 2 (ag_call_s 2 2 (1/2) y') g -> g 0%nat = 0%nat.
Proof.
  pose (v := fun s => if Nat.eqb s 0 then 5/4 else 3). assert (CW : forall s a r d n, cw (mk_t s a r d n 1) = 1) by (intros; apply cw_id; lra).
  assert (VH : data_values 2 (1/2) ep_rows v). { intros s Hs. destruct s as [|[|s]]; [| |lia]; unfold wmean, wsum, total, ep_rows; cbn [map fold_right at_s t_s t_r t_done t_next Nat.eqb]; unfold at_s; cbn [t_s Nat.eqb]; rewrite ?CW; unfold v; cbn [Nat.eqb]; field. }
  exists ep_rows, ep_b, v. split; [intros x Hx Dx; cbn in Hx; destruct Hx as [<-|[<-|[<-|[]]]]; cbn in *; auto; discriminate|]. split; [exact VH|].
  split; [unfold wmean, wsum, total, ep_rows, at_sa; cbn [map fold_right t_s t_a t_r t_done t_next Nat.eqb andb]; rewrite ?CW; field|]. split; [unfold wmean, wsum, total, ep_rows, at_sa; cbn [map fold_right t_s t_a t_r t_done t_next Nat.eqb andb]; rewrite ?CW; unfold v; cbn [Nat.eqb]; field|].
  split; [do 3 eexists; exact C127_ex_ends|]. intros lp lr gp gr gv lo hi lrv lrp lrr y wv wp wr SE HT ST. destruct (@C127_converges 2 2 (1/2) ep_rows ep_b lp lr gp gr gv lo hi lrv lrp lrr SE v y wv wp wr VH HT ST (1/20) ltac:(lra)) as [n0 H].
  exists n0. intros os HO K1 K2 K3. destruct (H os HO K1 K2 K3) as (y' & E & C). exists y'. split; [exact E|]. intros g GR. destruct (GR 0%nat ltac:(lia)) as (Ga & z & Ez & _ & M). destruct (C 0%nat ltac:(lia)) as (zs & Ezs & _ & Cz). rewrite Ez in Ezs. injection Ezs as <-.
  destruct (Cz 0%nat ltac:(lia)) as [_ A0]. destruct (Cz 1%nat ltac:(lia)) as [_ A1]. specialize (A0 (ex_intro _ (mk_t 0 0 1 true 0 1) (conj (or_introl eq_refl) (conj eq_refl eq_refl)))). specialize (A1 (ex_intro _ (mk_t 0 1 0 false 1 1) (conj (or_intror (or_introl eq_refl)) (conj eq_refl eq_refl)))).
  assert (Q0 : wmean (at_sa 0 0) (fun x => t_r x + 1/2 * v (t_next x)) ep_rows = 13/8) by (unfold wmean, wsum, total, ep_rows, at_sa; cbn [map fold_right t_s t_a t_r t_done t_next Nat.eqb andb]; rewrite ?CW; unfold v; cbn [Nat.eqb]; field).
  assert (Q1 : wmean (at_sa 0 1) (fun x => t_r x + 1/2 * v (t_next x)) ep_rows = 3/2) by (unfold wmean, wsum, total, ep_rows, at_sa; cbn [map fold_right t_s t_a t_r t_done t_next Nat.eqb andb]; rewrite ?CW; unfold v; cbn [Nat.eqb]; field).
  rewrite Q0 in A0. rewrite Q1 in A1. specialize (M 0%nat ltac:(lia)). destruct (g 0%nat) as [|[|k]]; [reflexivity| |lia]. exfalso. unfold Rabs in A0, A1. destruct (Rcase_abs _), (Rcase_abs _); lra.
Qed.
Print Assumptions C127_episodes_refuted.
