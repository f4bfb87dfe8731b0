(** C128: distributional TD learning with a categorical StochasticQ in training. *)
From Coq Require Import List Lia Bool Arith Reals Lra.
From Verif Require Import PyCommon CommonProofs UtilsModel UtilsSpec UtilsProofs2 UtilsProofs3 DistModel DistSpec DistProofs DistProofs2 DistProofs3 LossModel QModel QProofs TDModel TDSpec CoreModel CoreSpec LearnModel LearnProofs3 MbModel MbProofs CatModel CatSpec CatProofs CatProofs2 CatProofs3 CatProofs4 CatProofs5.
Import ListNotations.
Set Implicit Arguments.
Local Open Scope R_scope.

(** The data of the examples: one state, two actions; bootstrap factor 1/2, two bins on [-4, 8], so that the atoms are -1 and 5. *)
Definition ex_rows : list row := [mk_r 0 0 1 (1/2) 0 0; mk_r 0 1 0 (1/2) 0 0].
Definition ex_b : fbatch nat := mk_fb [0%nat; 0%nat] [one_hot 2 0; one_hot 2 1] [1; 1] (mk_tb [1; 0] [1/2; 1/2] [0%nat; 0%nat] [one_hot 2 0; one_hot 2 0]).
Definition ex_w : list R := [0; 0; ln 2; 0].
Definition ex_func (w : list R) : func := mkFunc 0 (Node [0%nat] [Node [0%nat] [Leaf w]]) (Node [] []) 0.
Definition ex_y : csys := mkC (mkLearner KTD (ex_func ex_w) (sgd (1/2)) (Node [] [])) (Some (ex_func ex_w)).
Lemma ex_data : rows_in 1 2 (1/2) ex_rows /\ all_pairs 1 2 ex_rows /\ (forall alg, holds_rows 2 alg ex_rows ex_b) /\ range_fits 2 (-4) 8 ex_rows /\ ex_rows <> [].
Proof.
  split; [|split; [|split; [|split; [|discriminate]]]].
  - intros x [<-|[<-|[]]]; cbn; repeat split; try lia; lra.
  - intros s a Hs Ha. destruct s; [|lia]. destruct a as [|[|a]]; [exists (mk_r 0 0 1 (1/2) 0 0)|exists (mk_r 0 1 0 (1/2) 0 0)|lia]; cbn; auto.
  - intros alg. repeat split; reflexivity.
  - intros x [<-|[<-|[]]]; unfold atom; cbn; lra.
Qed.
Lemma ex_nets : forall sub, sub 0%nat 0%nat = true -> nets 1 2 2 (1/2) sub ex_y ex_w ex_w.
Proof. intros sub H. repeat split; auto. Qed.

(** What is observed of a table of logits. *)
Theorem C128_calls : forall nS nA K lo hi lr sub y w wt s a, (2 <= K)%nat -> nets nS nA K lr sub y w wt -> (s < nS)%nat -> (a < nA)%nat ->
  (exists p, call_probs nS nA K y s a = Ok p /\ length p = K /\ forall k, (k < K)%nat -> nth k p 0 = prob nA K w s a k) /\ call_mean nS nA K lo hi y s a = Ok (mean_of nA K lo hi w s a).
Proof.
  intros nS nA K lo hi lr sub y w wt s a HK (_ & N & _) Hs Ha. unfold call_probs, call_mean. rewrite N. cbn [unwrap]. split; [|now apply value_eq]. rewrite logits_row by auto. unfold cat_mean. rewrite check_ok by apply lgl_length. cbn [bind]. eexists. split; [reflexivity|]. rewrite softmax_prob. split; [now rewrite map_length, seq_length|]. intros k Hk. now apply nth_seq_map.
Qed.
Print Assumptions C128_calls.
Example C128_calls_ex : exists sub, nets 1 2 2 (1/2) sub ex_y ex_w ex_w /\ prob 2 2 ex_w 0 1 0 = 2/3 /\ mean_of 2 2 (-4) 8 ex_w 0 1 = 1.
Proof.
  exists (fun _ _ => true). split; [now apply ex_nets|]. assert (E : exp (ln 2) = 2) by (apply exp_ln; lra). unfold mean_of, ev, prob, logit, atom. cbn. rewrite E, exp_0. split; [field|]. field.
Qed.

(** One update, of Sarsa or QLearning, with a target network or without: every logit moves by the learning rate times the mean of the errors. *)
Theorem C128_update : forall nS nA K lo hi gamma lr rows b alg g sub y w wt, (2 <= K)%nat -> lo < hi -> rows_in nS nA gamma rows -> holds_rows nA alg rows b -> rows <> [] -> ce_grads nS nA K lo hi alg g rows b ->
  nets nS nA K lr sub y w wt -> uses_next nA K lo hi alg wt rows ->
  exists y' w' wt', cstep nS nA K lo hi alg g sub y (CU b) = (y', Ok tt) /\ nets nS nA K lr sub y' w' wt' /\ (c_targ y <> None -> wt' = wt) /\ c_targ y' = c_targ y /\
  forall s a k, (s < nS)%nat -> (a < nA)%nat -> (k < K)%nat -> logit nA K w' s a k = logit nA K w s a k + lr / INR (length rows) * pair_sum s a (fun x => row_target nA K lo hi wt x k - prob nA K w s a k) rows.
Proof. intros. eapply step_update; eauto. Qed.
Print Assumptions C128_update.
Example C128_update_ex : exists g sub, ce_grads 1 2 2 (-4) 8 CQ g ex_rows ex_b /\ nets 1 2 2 (1/2) sub ex_y ex_w ex_w /\ uses_next 2 2 (-4) 8 CQ ex_w ex_rows.
Proof.
  destruct ex_data as (D1 & D2 & D3 & D4 & D5). exists (fun wt _ w => the_grad 1 2 2 (-4) 8 ex_rows wt w), (fun _ _ => true). split; [apply (@grads_exist 1 2 2 (-4) 8 ltac:(lia) ltac:(lra) CQ (1/2) ex_rows ex_b); auto|]. split; [now apply ex_nets|].
  assert (E : exp (ln 2) = 2) by (apply exp_ln; lra). intros x a Hx Ha Na. assert (a = 1%nat) by (destruct Hx as [<-|[<-|[]]]; cbn in Na; lia). subst a. destruct Hx as [<-|[<-|[]]]; unfold mean_of, ev, prob, logit, atom; cbn; rewrite E, exp_0; lra.
Qed.

(** Batches with arrays of different lengths are rejected, and nothing but the random key changes. *)
Lemma affine_shape : forall K lo hi Z In Rn, (forall z, List.In z Z -> length z = K) -> length In <> length Z \/ length Rn <> length Z -> cd_affine K lo hi In Rn Z = Err EAssertion.
Proof.
  intros K lo hi Z. induction Z as [|z Z IH]; intros [|i In] [|r Rn] HZ HL; cbn [cd_affine]; auto; try (cbn in HL; lia). unfold di_affine. rewrite (HZ z) by (now left). rewrite Nat.eqb_refl. cbn [bind]. rewrite IH; auto; [intros z' Hz; apply HZ; now right|cbn [length] in HL; lia].
Qed.
Theorem C128_shapes : forall nS nA K lo hi gamma lr rows b b' alg g sub y w wt, (2 <= K)%nat -> lo < hi -> rows_in nS nA gamma rows -> holds_rows nA alg rows b -> nets nS nA K lr sub y w wt -> uses_next nA K lo hi alg wt rows ->
  (exists W, length W <> length rows /\ b' = mk_fb (fb_S b) (fb_A b) W (fb_t b)) \/
  (exists Rn In, (length Rn <> length rows /\ length Rn <> 1%nat \/ length In <> length rows /\ length In <> 1%nat) /\ b' = mk_fb (fb_S b) (fb_A b) (fb_W b) (mk_tb Rn In (tb_Snext (fb_t b)) (tb_Anext (fb_t b)))) ->
  exists l', cstep nS nA K lo hi alg g sub y (CU b') = (mkC l' (c_targ y), Err EAssertion) /\ f_params (l_func l') = f_params (l_func (c_q y)) /\ f_state (l_func l') = f_state (l_func (c_q y)) /\ l_ostate l' = l_ostate (c_q y).
Proof.
  intros nS nA K lo hi gamma lr rows b b' alg g sub y w wt HK Hlh HB HR (N1 & N2 & N3 & N4 & N5) U BAD. assert (T : unwrap (match c_targ y with Some f => f_params f | None => f_params (l_func (c_q y)) end) = Some wt). { destruct (c_targ y) as [f|]; [destruct N5 as (-> & _); apply unwrap_wrap|]. rewrite N2, N5. apply unwrap_wrap. }
  assert (L : cd_loss nS nA K lo hi alg wt b' w = Err EAssertion).
  { pose proof (@next_eq nS nA K lo hi HK alg gamma rows b HB HR wt U) as NX. destruct HR as (R1 & R2 & R3 & R4 & R5 & R6 & R7). unfold cd_loss, cd_target. destruct BAD as [(W & LW & ->)|(Rn & In & LB & ->)]; cbn [fb_S fb_A fb_W fb_t].
    - rewrite R1, R2. rewrite (@logits_rows nS nA K rows) by (intros x Hx; destruct (HB x Hx) as (A & B & _); auto). cbn [bind]. rewrite NX. cbn [bind]. rewrite R4, R5, R6. rewrite (@logits_rows nS nA K rows) by (intros x Hx; destruct (HB x Hx) as (_ & _ & A & B & _); auto). cbn [bind]. rewrite target_rows. cbn [bind]. rewrite vmap2_ok by (now rewrite !map_length). cbn [bind]. rewrite combine_map_map, map_map. cbn [fst snd].
      rewrite (map_ext_in _ (fun x => Ok (row_ce nA K lo hi w wt x))) by (intros x _; apply ce_eq; auto). assert (C : forall l, collect (fun c : outcome R => c) (map (fun x => Ok (row_ce nA K lo hi w wt x)) l) = Ok (map (row_ce nA K lo hi w wt) l)) by (induction l as [|x l IH]; auto; cbn [map collect bind]; now rewrite IH).
      rewrite C. cbn [bind]. rewrite map_length. destruct (Nat.eqb_spec (length W) (length rows)); [contradiction|reflexivity].
    - rewrite R1, R2. rewrite (@logits_rows nS nA K rows) by (intros x Hx; destruct (HB x Hx) as (A & B & _); auto). cbn [bind].
      replace (cd_next nS nA K lo hi alg wt (mk_tb Rn In (tb_Snext (fb_t b)) (tb_Anext (fb_t b)))) with (cd_next nS nA K lo hi alg wt (fb_t b)) by (destruct alg; reflexivity). rewrite NX. cbn [bind tb_Snext tb_In tb_Rn]. rewrite R6. rewrite (@logits_rows nS nA K rows) by (intros x Hx; destruct (HB x Hx) as (_ & _ & A & B & _); auto). cbn [bind].
      rewrite affine_shape; auto; [intros z Hz; apply in_map_iff in Hz; destruct Hz as (x & <- & _); apply lgl_length|rewrite map_length; lia]. }
  cbn [cstep]. rewrite T. unfold update. rewrite N2. unfold gm at 1. change (unwrap (Node [0%nat] [Node [0%nat] [Leaf w]])) with (Some w). cbn iota. rewrite L. cbn [bind]. eexists. split; [reflexivity|]. cbn. auto.
Qed.
Print Assumptions C128_shapes.
Example C128_shapes_ex : exists y b', nets 1 2 2 (1/2) (fun _ _ => true) y ex_w ex_w /\ holds_rows 2 CQ ex_rows ex_b /\ uses_next 2 2 (-4) 8 CQ ex_w ex_rows /\ exists W, length W <> length ex_rows /\ b' = mk_fb (fb_S ex_b) (fb_A ex_b) W (fb_t ex_b).
Proof.
  destruct ex_data as (D1 & D2 & D3 & D4 & D5). destruct C128_update_ex as (g & sub & _ & _ & U). exists ex_y. eexists. split; [now apply ex_nets|]. split; [auto|]. split; [exact U|]. exists [1; 1; 1; 1; 1]. split; [discriminate|reflexivity].
Qed.
(** Without a target network there is nothing to synchronise: AttributeError, after whatever updates. *)
Theorem C128_no_target : forall nS nA K lo hi alg g sub y os y1 tau os', c_targ y = None -> crun nS nA K lo hi alg g sub y os = (y1, Ok tt) -> crun nS nA K lo hi alg g sub y (os ++ CSync tau :: os') = (y1, Err EAttribute).
Proof.
  intros nS nA K lo hi alg g sub y os. revert y. induction os as [|o os IH]; intros y y1 tau os' N E; cbn [app crun] in *.
  - injection E as <-. unfold cstep. now rewrite N.
  - destruct (cstep nS nA K lo hi alg g sub y o) as [y2 [u|e]] eqn:S; [|discriminate]. apply IH; auto. destruct o as [b|t]; cbn [cstep] in S; [|rewrite N in S; discriminate]. destruct (unwrap _) as [targ|]; [|discriminate]. destruct (update _ _) as [l r]. injection S as <- _. exact N.
Qed.
Print Assumptions C128_no_target.
Example C128_no_target_ex : exists g y1, crun 1 2 2 (-4) 8 CQ g (fun _ _ => true) (mkC (c_q ex_y) None) [CU ex_b] = (y1, Ok tt).
Proof.
  destruct ex_data as (D1 & D2 & D3 & D4 & D5). destruct C128_update_ex as (g & sub & G & N & U). exists g. destruct N as (N1 & N2 & N3 & N4 & _).
  destruct (@C128_update 1 2 2 (-4) 8 (1/2) (1/2) ex_rows ex_b CQ g (fun _ _ => true) (mkC (c_q ex_y) None) ex_w ex_w) as (y' & w' & wt' & E & _); auto; [lra|repeat split; auto|]. exists y'. cbn [crun]. now rewrite E.
Qed.

(** Without a target network an update changes nothing exactly if the probabilities are the averaged targets that they themselves produce. *)
Theorem C128_stationary : forall nS nA K lo hi gamma lr rows b alg g sub y w, (2 <= K)%nat -> lo < hi -> rows_in nS nA gamma rows -> all_pairs nS nA rows -> holds_rows nA alg rows b -> rows <> [] -> lr <> 0 -> ce_grads nS nA K lo hi alg g rows b ->
  nets nS nA K lr sub y w w -> c_targ y = None -> uses_next nA K lo hi alg w rows ->
  exists y' w', cstep nS nA K lo hi alg g sub y (CU b) = (y', Ok tt) /\ nets nS nA K lr sub y' w' w' /\
  ((forall s a k, (s < nS)%nat -> (a < nA)%nat -> (k < K)%nat -> logit nA K w' s a k = logit nA K w s a k) <->
   (forall s a k, (s < nS)%nat -> (a < nA)%nat -> (k < K)%nat -> prob nA K w s a k = pair_mean s a (fun x => row_target nA K lo hi w x k) rows)).
Proof.
  intros nS nA K lo hi gamma lr rows b alg g sub y w HK Hlh HB AP HR NE Hlr HG N T U. destruct (@step_update nS nA K lo hi gamma lr HK Hlh rows b alg g sub HB HR NE HG y w w N U) as (y' & w' & wt' & E & N' & _ & T' & S). exists y', w'. split; [exact E|].
  assert (wt' = w') by (destruct N' as (_ & _ & _ & _ & X); rewrite T', T in X; exact X). subst wt'. split; [exact N'|]. assert (NP : 0 < INR (length rows)) by (apply lt_0_INR; destruct rows; [congruence|cbn; lia]).
  assert (X : forall s a k, (s < nS)%nat -> (a < nA)%nat -> (k < K)%nat -> pair_sum s a (fun x => row_target nA K lo hi w x k - prob nA K w s a k) rows = pair_sum s a (fun _ => 1) rows * (pair_mean s a (fun x => row_target nA K lo hi w x k) rows - prob nA K w s a k)).
  { intros s a k Hs Ha Hk. pose proof (pair_count rows (AP s a Hs Ha)) as C. rewrite pair_sum_minus. rewrite (@pair_sum_ext rows s a (fun _ => prob nA K w s a k) (fun _ => prob nA K w s a k * 1)) by (intros; ring). rewrite pair_sum_scal. unfold pair_mean. field. lra. }
  split; intros H s a k Hs Ha Hk; specialize (H s a k Hs Ha Hk); pose proof (pair_count rows (AP s a Hs Ha)) as C; pose proof (S s a k Hs Ha Hk) as S0; rewrite X in S0 by auto.
  - assert (Z : lr / INR (length rows) * (pair_sum s a (fun _ => 1) rows * (pair_mean s a (fun x => row_target nA K lo hi w x k) rows - prob nA K w s a k)) = 0) by lra. assert (L0 : lr / INR (length rows) <> 0) by (unfold Rdiv; apply Rmult_integral_contrapositive_currified; [auto|apply Rinv_neq_0_compat; lra]).
    apply Rmult_integral in Z. destruct Z as [Z|Z]; [contradiction|]. apply Rmult_integral in Z. destruct Z; lra.
  - rewrite S0, <- H. ring.
Qed.
Print Assumptions C128_stationary.
Example C128_stationary_ex : exists g sub, let y := mkC (c_q ex_y) None in ce_grads 1 2 2 (-4) 8 CSarsa g ex_rows ex_b /\ nets 1 2 2 (1/2) sub y ex_w ex_w /\ c_targ y = None /\ uses_next 2 2 (-4) 8 CSarsa ex_w ex_rows.
Proof.
  destruct ex_data as (D1 & D2 & D3 & D4 & D5). exists (fun wt _ w => the_grad 1 2 2 (-4) 8 ex_rows wt w), (fun _ _ => true). split; [apply (@grads_exist 1 2 2 (-4) 8 ltac:(lia) ltac:(lra) CSarsa (1/2) ex_rows ex_b); auto|]. repeat split; auto.
Qed.

(** Repeated updates with a fixed q_targ: the distributions converge to the averaged targets. *)
Theorem C128_inner : forall nS nA K lo hi gamma lr rows b alg g sub y w wt kap, (2 <= K)%nat -> lo < hi -> rows_in nS nA gamma rows -> all_pairs nS nA rows -> holds_rows nA alg rows b -> rows <> [] -> 0 < lr < 1 -> ce_grads nS nA K lo hi alg g rows b ->
  nets nS nA K lr sub y w wt -> c_targ y <> None -> uses_next nA K lo hi alg wt rows -> 0 < kap ->
  exists N, forall n, (N <= n)%nat -> exists y', crun nS nA K lo hi alg g sub y (repeat (CU b) n) = (y', Ok tt) /\
  forall s a, (s < nS)%nat -> (a < nA)%nat -> exists p, call_probs nS nA K y' s a = Ok p /\ length p = K /\ forall k, (k < K)%nat -> Rabs (nth k p 0 - pair_mean s a (fun x => row_target nA K lo hi wt x k) rows) <= kap.
Proof.
  intros nS nA K lo hi gamma lr rows b alg g sub y w wt kap HK Hlh HB AP HR NE Hlr HG N T U Hk. destruct (@inner nS nA K lo hi gamma lr HK Hlh rows b alg g sub HB HR NE HG AP Hlr y w wt N T U kap Hk) as (M & HM). exists M. intros n Hn. destruct (HM n Hn) as (y' & w' & E & N' & T' & B). exists y'. split; [exact E|]. intros s a Hs Ha.
  destruct (@C128_calls nS nA K lo hi lr sub y' w' wt s a HK N' Hs Ha) as ((p & P1 & P2 & P3) & _). exists p. split; [exact P1|]. split; [exact P2|]. intros k Hk0. rewrite P3 by auto. rewrite Rabs_minus_sym. now apply B.
Qed.
Print Assumptions C128_inner.

Example C128_inner_ex : exists g sub, ce_grads 1 2 2 (-4) 8 CQ g ex_rows ex_b /\ nets 1 2 2 (1/2) sub ex_y ex_w ex_w /\ c_targ ex_y <> None /\ uses_next 2 2 (-4) 8 CQ ex_w ex_rows.
Proof. destruct C128_update_ex as (g & sub & A & B & C). exists g, sub. repeat (split; auto). discriminate. Qed.

(** The projected distributional Bellman equations of the data have exactly one solution. *)
Theorem C128_fixed : forall nS nA K lo hi gamma rows, (2 <= K)%nat -> lo < hi -> 0 <= gamma < 1 -> rows_in nS nA gamma rows -> all_pairs nS nA rows ->
  exists eta, data_dists nS nA K lo hi rows eta /\ forall eta', data_dists nS nA K lo hi rows eta' -> forall s a k, (s < nS)%nat -> (a < nA)%nat -> (k < K)%nat -> eta' s a k = eta s a k.
Proof.
  intros nS nA K lo hi gamma rows HK Hlh Hg HB AP. destruct (@solution K lo hi HK Hlh nS nA gamma rows Hg HB AP) as (e & SE). exists e. split; [now apply solves_data|]. intros e' H. apply (@solves_unique K lo hi HK Hlh nS nA gamma rows Hg HB AP e' e); auto. now apply solves_data.
Qed.
Print Assumptions C128_fixed.
Example C128_fixed_ex : rows_in 1 2 (1/2) ex_rows /\ all_pairs 1 2 ex_rows.
Proof. destruct ex_data as (D1 & D2 & _). auto. Qed.
(** Their means are the action values of the data, if the value range is large enough. *)
Theorem C128_means : forall nS nA K lo hi gamma rows eta, (2 <= K)%nat -> lo < hi -> rows_in nS nA gamma rows -> all_pairs nS nA rows -> range_fits K lo hi rows -> data_dists nS nA K lo hi rows eta ->
  data_q nS nA rows (fun s a => ev K (eta s a) (atom K lo hi)).
Proof. intros nS nA K lo hi gamma rows eta HK Hlh HB AP RF H. apply (@solves_means K lo hi HK Hlh nS nA gamma rows HB eta); auto. now apply solves_data. Qed.
Print Assumptions C128_means.
Example C128_means_ex : exists eta, data_dists 1 2 2 (-4) 8 ex_rows eta /\ range_fits 2 (-4) 8 ex_rows.
Proof. destruct ex_data as (D1 & D2 & D3 & D4 & D5). destruct (@C128_fixed 1 2 2 (-4) 8 (1/2) ex_rows ltac:(lia) ltac:(lra) ltac:(lra) D1 D2) as (e & H & _). exists e. auto. Qed.

(** Sarsa: after enough rounds, each of them long enough, the distributions are within any eps of the solution, in Wasserstein distance, up to what
    the floor of 1e-16 costs. *)
Theorem C128_converges : forall nS nA K lo hi gamma lr rows b g sub eta eps, (2 <= K)%nat -> lo < hi -> 0 <= gamma < 1 -> rows_in nS nA gamma rows -> all_pairs nS nA rows -> holds_rows nA CSarsa rows b -> rows <> [] -> 0 < lr < 1 ->
  ce_grads nS nA K lo hi CSarsa g rows b -> data_dists nS nA K lo hi rows eta -> 0 < eps ->
  exists M0, forall M y w wt, (M0 <= M)%nat -> nets nS nA K lr sub y w wt -> c_targ y <> None ->
  after_rounds (fun y n y' => crun nS nA K lo hi CSarsa g sub y (round_of b n) = (y', Ok tt)) M
    (fun y' => forall s a, (s < nS)%nat -> (a < nA)%nat -> exists p m, call_probs nS nA K y' s a = Ok p /\ length p = K /\ call_mean nS nA K lo hi y' s a = Ok m /\
       let D := eps + 2 * INR K * / 10 ^ 16 * (hi - lo) / (1 - gamma) in near K lo hi D (fun k => nth k p 0) (eta s a) /\ Rabs (m - ev K (eta s a) (atom K lo hi)) <= D) y.
Proof.
  intros nS nA K lo hi gamma lr rows b g sub eta eps HK Hlh Hg HB AP HR NE Hlr HG HE He. destruct (@eval_converges nS nA K lo hi gamma lr HK Hlh rows b CSarsa g sub HB HR NE HG AP Hlr Hg eta HE eq_refl eps He) as (M0 & H). exists M0. intros M y w wt HM N T. specialize (H M y w wt HM N T).
  refine (@after_rounds_imp _ M _ _ _ y H). intros y' (w' & N' & T' & C') s a Hs Ha. destruct (@C128_calls nS nA K lo hi lr sub y' w' w' s a HK N' Hs Ha) as ((p & P1 & P2 & P3) & P4). exists p, (mean_of nA K lo hi w' s a). split; [exact P1|]. split; [exact P2|]. split; [exact P4|]. rewrite E16. cbv zeta. specialize (C' s a Hs Ha). split.
  - apply (@near_ext K lo hi HK _ (prob nA K w' s a) (eta s a)); auto. intros k Hk. now rewrite P3.
  - exact (near_value C').
Qed.
Print Assumptions C128_converges.
Example C128_converges_ex : exists g sub eta, ce_grads 1 2 2 (-4) 8 CSarsa g ex_rows ex_b /\ holds_rows 2 CSarsa ex_rows ex_b /\ data_dists 1 2 2 (-4) 8 ex_rows eta /\ nets 1 2 2 (1/2) sub ex_y ex_w ex_w /\ c_targ ex_y <> None.
Proof.
  destruct ex_data as (D1 & D2 & D3 & D4 & D5). destruct (@C128_fixed 1 2 2 (-4) 8 (1/2) ex_rows ltac:(lia) ltac:(lra) ltac:(lra) D1 D2) as (e & H & _). exists (fun wt _ w => the_grad 1 2 2 (-4) 8 ex_rows wt w), (fun _ _ => true), e. split; [apply (@grads_exist 1 2 2 (-4) 8 ltac:(lia) ltac:(lra) CSarsa (1/2) ex_rows ex_b); auto|]. split; auto. split; auto. split; [now apply ex_nets|discriminate].
Qed.

(** QLearning: near action values q whose greedy actions are unique by some margin, the means converge to q, which is then optimal. *)
Theorem C128_control : forall nS nA K lo hi gamma lr rows b alg g sub q margin eps, (2 <= K)%nat -> lo < hi -> 0 <= gamma < 1 -> rows_in nS nA gamma rows -> all_pairs nS nA rows -> holds_rows nA alg rows b -> rows <> [] -> 0 < lr < 1 ->
  ce_grads nS nA K lo hi alg g rows b -> data_q nS nA rows q -> greedy_by nA margin rows q -> range_fits K lo hi rows -> 4 * INR K * / 10 ^ 16 * (hi - lo) < margin * (1 - gamma) -> 0 < eps ->
  exists M0, forall M y w wt, (M0 <= M)%nat -> nets nS nA K lr sub y w wt -> c_targ y <> None -> (forall s a, (s < nS)%nat -> (a < nA)%nat -> Rabs (mean_of nA K lo hi wt s a - q s a) < margin / 2) ->
  after_rounds (fun y n y' => crun nS nA K lo hi alg g sub y (round_of b n) = (y', Ok tt)) M
    (fun y' => forall s a, (s < nS)%nat -> (a < nA)%nat -> exists m, call_mean nS nA K lo hi y' s a = Ok m /\ Rabs (m - q s a) <= eps + 2 * INR K * / 10 ^ 16 * (hi - lo) / (1 - gamma)) y.
Proof.
  intros nS nA K lo hi gamma lr rows b alg g sub q margin eps HK Hlh Hg HB AP HR NE Hlr HG HQ GB RF Hm He. rewrite E16 in *. destruct (@control_converges nS nA K lo hi gamma lr HK Hlh rows b alg g sub HB HR NE HG AP Hlr Hg q margin HQ RF GB eps He ltac:(lra)) as (M0 & H). exists M0. intros M y w wt HM N T C.
  specialize (H M y w wt HM N T ltac:(intros s a Hs Ha; specialize (C s a Hs Ha); lra)). refine (@after_rounds_imp _ M _ _ _ y H). intros y' (w' & N' & T' & C') s a Hs Ha. destruct (@C128_calls nS nA K lo hi lr sub y' w' w' s a HK N' Hs Ha) as (_ & P4). exists (mean_of nA K lo hi w' s a). split; [exact P4|]. now apply C'.
Qed.
Print Assumptions C128_control.
Example C128_control_ex : exists g sub q, ce_grads 1 2 2 (-4) 8 CQ g ex_rows ex_b /\ data_q 1 2 ex_rows q /\ greedy_by 2 1 ex_rows q /\ nets 1 2 2 (1/2) sub ex_y ex_w ex_w /\ 4 * INR 2 * / 10 ^ 16 * (8 - -4) < 1 * (1 - 1/2) /\
  forall s a, (s < 1)%nat -> (a < 2)%nat -> Rabs (mean_of 2 2 (-4) 8 ex_w s a - q s a) < 1 / 2.
Proof.
  destruct ex_data as (D1 & D2 & D3 & D4 & D5). exists (fun wt _ w => the_grad 1 2 2 (-4) 8 ex_rows wt w), (fun _ _ => true), (fun s a => if Nat.eqb a 0 then 2 else 1). split; [apply (@grads_exist 1 2 2 (-4) 8 ltac:(lia) ltac:(lra) CQ (1/2) ex_rows ex_b); auto|].
  split; [|split; [|split; [now apply ex_nets|split]]].
  - intros s a Hs Ha. destruct s; [|lia]. destruct a as [|[|a]]; [| |lia]; unfold pair_mean, pair_sum; cbn; field.
  - intros x a Hx Ha Na. destruct Hx as [<-|[<-|[]]]; cbn in *; destruct a; try lia; cbn; lra.
  - cbn. assert (/ 10 ^ 16 <= / 1000) by (apply Rinv_le_contravar; lra). cbn in H. lra.
  - intros s a Hs Ha. destruct s; [|lia]. assert (E : exp (ln 2) = 2) by (apply exp_ln; lra). destruct a as [|[|a]]; [| |lia]; unfold mean_of, ev, prob, logit, atom; cbn; rewrite ?E, ?exp_0; apply Rabs_def1; lra.
Qed.

(** QLearning from arbitrary logits: unless q_targ has tied greedy actions at the start of some round, the means converge to the optimal values. *)
Theorem C128_global : forall nS nA K lo hi gamma lr rows b g sub q v eps, (2 <= K)%nat -> lo < hi -> 0 <= gamma < 1 -> rows_in nS nA gamma rows -> all_pairs nS nA rows -> holds_rows nA CQ rows b -> rows <> [] -> 0 < lr < 1 ->
  (forall an, (forall s, (an s < nA)%nat) -> ce_grads nS nA K lo hi CQ g (map (with_next an) rows) b) -> range_fits K lo hi rows -> optimal_q nS nA rows q v -> 0 < eps ->
  exists M0, forall M y w wt, (M0 <= M)%nat -> nets nS nA K lr sub y w wt -> c_targ y <> None ->
  after_rounds_unless (tied nA K lo hi rows) (fun y n y' => crun nS nA K lo hi CQ g sub y (round_of b n) = (y', Ok tt)) M
    (fun y' => forall s a, (s < nS)%nat -> (a < nA)%nat -> exists m, call_mean nS nA K lo hi y' s a = Ok m /\ Rabs (m - q s a) <= eps + 2 * INR K * / 10 ^ 16 * (hi - lo) / (1 - gamma)) y.
Proof.
  intros nS nA K lo hi gamma lr rows b g sub q v eps HK Hlh Hg HB AP HR NE Hlr HG RF HQ He. rewrite E16 in *. destruct (@global_converges nS nA K lo hi gamma lr HK Hlh rows b g sub HB HR NE AP Hlr Hg HG RF q v HQ eps He) as (M0 & H). exists M0. intros M y w wt HM N T.
  specialize (H M y w wt HM N T). refine (@unless_imp _ _ M _ _ _ y H). intros y' (w' & N' & T' & C') s a Hs Ha. destruct (@C128_calls nS nA K lo hi lr sub y' w' w' s a HK N' Hs Ha) as (_ & P4). exists (mean_of nA K lo hi w' s a). split; [exact P4|]. now apply C'.
Qed.
Print Assumptions C128_global.
Example C128_global_ex : exists g sub q v, (forall an, (forall s, (an s < 2)%nat) -> ce_grads 1 2 2 (-4) 8 CQ g (map (with_next an) ex_rows) ex_b) /\ optimal_q 1 2 ex_rows q v /\ nets 1 2 2 (1/2) sub ex_y ex_w ex_w /\ ~ tied 2 2 (-4) 8 ex_rows ex_y.
Proof.
  destruct ex_data as (D1 & D2 & D3 & D4 & D5). exists (fun wt _ w => the_grad 1 2 2 (-4) 8 (map (with_next (gbest 2 2 (-4) 8 wt)) ex_rows) wt w), (fun _ _ => true), (fun s a => if Nat.eqb a 0 then 2 else 1), (fun _ => 2).
  assert (E : exp (ln 2) = 2) by (apply exp_ln; lra). split; [|split; [|split; [now apply ex_nets|]]].
  - intros an Han wt w L1 L2 U. assert (EQ : map (with_next (gbest 2 2 (-4) 8 wt)) ex_rows = map (with_next an) ex_rows).
    { assert (A0 : gbest 2 2 (-4) 8 wt 0 = an 0%nat). { destruct (@best_ok 2 (mean_of 2 2 (-4) 8 wt 0) ltac:(lia)) as [B1 B2]. destruct (Nat.eq_dec (gbest 2 2 (-4) 8 wt 0) (an 0%nat)) as [|Na]; [auto|]. exfalso. assert (U0 := U (with_next an (mk_r 0 0 1 (1/2) 0 0)) (gbest 2 2 (-4) 8 wt 0) (or_introl eq_refl) B1 Na). cbn [with_next w_next w_anext] in U0. specialize (B2 _ (Han 0%nat)). unfold gbest in U0. lra. }
      unfold ex_rows. cbn [map]. unfold with_next. cbn [w_s w_a w_r w_in w_next]. now rewrite A0. }
    cbv beta. rewrite EQ. apply (@grads_exist 1 2 2 (-4) 8 ltac:(lia) ltac:(lra) CQ (1/2) (map (with_next an) ex_rows) ex_b); auto.
    + pose proof (Han 0%nat). intros x [<-|[<-|[]]]; cbn; repeat split; try lia; try lra.
    + repeat split; try reflexivity. discriminate.
    + discriminate.
  - split; [intros s _; split; [exists 0%nat; cbn; split; [lia|lra]|intros a _; destruct (Nat.eqb a 0); lra]|]. intros s a Hs Ha. destruct s; [|lia]. destruct a as [|[|a]]; [| |lia]; unfold pair_mean, pair_sum; cbn; field.
  - intros (f & wt & x & a & a' & Ef & Ew & Hx & Ha & Ha' & Na & EM & _). injection Ef as <-. injection Ew as <-. assert (NX : w_next x = 0%nat) by (destruct Hx as [<-|[<-|[]]]; reflexivity). rewrite NX in EM. destruct a as [|[|a]]; [| |lia]; (destruct a' as [|[|a']]; [| |lia]); try congruence; unfold mean_of, ev, prob, logit, atom in EM; cbn in EM; rewrite ?E, ?exp_0 in EM; lra.
Qed.

(** Mixed next actions: tied greedy actions of QLearning, and the propensities of ExpectedSarsa. What is mixed are the logits, not the distributions, so
    that the mean of the target is not the mean over the actions, even if all of them have the same value. *)
Definition mix_w : list R := [0; ln 3; ln 2; ln 2; 0; ln 3].
Lemma exp_half : forall x, 0 < x -> exp (ln x / 2) = sqrt x.
Proof. intros x Hx. apply Rsqr_inj; [left; apply exp_pos|apply sqrt_pos|]. rewrite Rsqr_sqrt by lra. unfold Rsqr. rewrite <- exp_plus. replace (ln x / 2 + ln x / 2) with (ln x) by field. now apply exp_ln. Qed.
Lemma proj_id : forall K lo hi p k, (2 <= K)%nat -> lo < hi -> (k < K)%nat -> proj K lo hi 0 1 p k = p k.
Proof.
  intros K lo hi p k HK Hlh Hk. rewrite <- (@ev_pick K p k Hk). unfold proj. apply (ev_ext HK). intros j Hj. pose proof (@Dz K lo hi HK Hlh) as D. rewrite Rmult_1_l, Rplus_0_r. rewrite Rmax_left by (apply (@z_mono K lo hi HK Hlh); lia). rewrite Rmin_left by (apply (@z_mono K lo hi HK Hlh); lia).
  unfold hat. destruct (Nat.eqb_spec j k) as [->|NE].
  - rewrite Rminus_eq_0. unfold Rdiv. rewrite Rmult_0_l, Rabs_R0, Rminus_0_r. apply Rmax_right. lra.
  - apply Rmax_left. pose proof (@z_sep K lo hi HK Hlh j k NE) as Z. unfold Rdiv at 1. rewrite Rabs_mult, (Rabs_pos_eq (/ _)) by (left; now apply Rinv_0_lt_compat). apply Rmult_le_compat_r with (r := / ((hi - lo) / INR K)) in Z; [|left; now apply Rinv_0_lt_compat]. rewrite Rinv_r in Z by lra. lra.
Qed.
Lemma masses_id : forall K lo hi p, (2 <= K)%nat -> lo < hi -> length p = K -> di_masses K lo hi (fun x => x) (fun x => x) 1 0 p = p.
Proof.
  intros K lo hi p HK Hlh L. apply nth_ext with 0 0; [rewrite L; exact (proj1 (@DistProofs3.masses_expect K lo hi (fun v => v) (fun v => v) 1 0 p HK Hlh L (fun _ => 0)))|]. intros k Hk.
  rewrite (proj1 (@DistProofs3.masses_expect K lo hi (fun v => v) (fun v => v) 1 0 p HK Hlh L (fun _ => 0))) in Hk. assert (E : p = map (fun k => nth k p 0) (seq 0 K)) by (rewrite <- L; symmetry; apply map_nth_seq). rewrite E at 1. rewrite <- (@proj_masses K lo hi HK Hlh) by auto. now apply proj_id.
Qed.
Lemma mix_root : (sqrt 6 - sqrt 2) / (sqrt 2 + sqrt 3 + sqrt 6) <> 1 / 6.
Proof.
  assert (A2 := sqrt_sqrt 2 ltac:(lra)). assert (A3 := sqrt_sqrt 3 ltac:(lra)). assert (A6 := sqrt_sqrt 6 ltac:(lra)). pose proof (sqrt_lt_R0 2 ltac:(lra)). pose proof (sqrt_lt_R0 3 ltac:(lra)). pose proof (sqrt_lt_R0 6 ltac:(lra)).
  assert (M : sqrt 2 * sqrt 3 = sqrt 6) by (rewrite <- sqrt_mult by lra; f_equal; lra). intros E. assert (F : 6 * (sqrt 6 - sqrt 2) = sqrt 2 + sqrt 3 + sqrt 6) by (apply Rmult_eq_compat_r with (r := 6 * (sqrt 2 + sqrt 3 + sqrt 6)) in E; field_simplify in E; lra).
  assert (G : 5 * sqrt 6 * (5 * sqrt 6) = (7 * sqrt 2 + sqrt 3) * (7 * sqrt 2 + sqrt 3)) by (f_equal; lra). assert (G0 : 25 * (sqrt 6 * sqrt 6) = 49 * (sqrt 2 * sqrt 2) + 14 * (sqrt 2 * sqrt 3) + sqrt 3 * sqrt 3) by lra. rewrite A2, A3, A6, M in G0. assert (G' : sqrt 6 = 7 / 2) by lra. rewrite G' in A6. lra.
Qed.
Lemma mix_target : exists t m, cd_affine 3 (-3/2) (3/2) [1] [0] [[ln 2 / 2; ln 3 / 2; ln 6 / 2]] = Ok [t] /\ bind (cat_mean 3 t) (di_post 3 (-3/2) (3/2)) = Ok m /\ m <> 1 / 6.
Proof.
  pose proof (sqrt_lt_R0 2 ltac:(lra)) as P2. pose proof (sqrt_lt_R0 3 ltac:(lra)) as P3. pose proof (sqrt_lt_R0 6 ltac:(lra)) as P6. set (z := sqrt 2 + sqrt 3 + sqrt 6).
  assert (SM : softmax [ln 2 / 2; ln 3 / 2; ln 6 / 2] = [sqrt 2 / z; sqrt 3 / z; sqrt 6 / z]) by (unfold softmax, sumexp; cbn [map rsum fold_right]; rewrite !exp_half by lra; replace (sqrt 2 + (sqrt 3 + (sqrt 6 + 0))) with z by (unfold z; ring); reflexivity).
  assert (B : forall x, 1 <= x -> eps16 <= sqrt x / z).
  { intros x Hx. assert (1 <= sqrt x) by (rewrite <- sqrt_1 at 1; apply sqrt_le_1; lra). assert (Z : z <= 9) by (assert (sqrt 2 <= 2) by (apply Rsqr_incr_0; unfold Rsqr; rewrite ?sqrt_sqrt; lra); assert (sqrt 3 <= 3) by (apply Rsqr_incr_0; unfold Rsqr; rewrite ?sqrt_sqrt; lra); assert (sqrt 6 <= 4) by (apply Rsqr_incr_0; unfold Rsqr; rewrite ?sqrt_sqrt; lra); unfold z; lra).
    apply Rle_trans with (/ 9); [unfold eps16; apply Rinv_le_contravar; lra|]. apply Rle_trans with (/ z); [apply Rinv_le_contravar; unfold z in *; lra|]. unfold Rdiv. rewrite <- (Rmult_1_l (/ z)) at 1. apply Rmult_le_compat_r; auto. left. apply Rinv_0_lt_compat. unfold z. lra. }
  assert (Z0 : z <> 0) by (unfold z; lra). assert (Q : forall x, 1 <= x -> exp (ln (sqrt x / z)) = sqrt x / z) by (intros x Hx; apply exp_ln; apply Rdiv_lt_0_compat; [apply sqrt_lt_R0; lra|unfold z; lra]).
  eexists. exists ((sqrt 6 - sqrt 2) / z). split; [|split; [|exact mix_root]].
  - cbn [cd_affine]. unfold di_affine. cbn [length Nat.eqb bind]. rewrite SM, masses_id by (auto; lra). cbn [map]. rewrite !Rmax_left by (apply B; lra). reflexivity.
  - unfold cat_mean, check_n. cbn [length Nat.eqb bind]. unfold softmax, sumexp, di_post, atoms, atom. cbn [map rsum fold_right]. rewrite !Q by lra. cbn [length Nat.eqb seq map]. f_equal. unfold dot. cbn [combine map rsum fold_right fst snd INR]. cbn. unfold z in *. field. lra.
Qed.
Lemma mix_logits : linear 3 mix_w (kron [1] [1/2; 1/2]) = [ln 2 / 2; ln 3 / 2; ln 6 / 2].
Proof.
  assert (L : ln 6 = ln 2 + ln 3) by (rewrite <- ln_mult by lra; f_equal; lra). unfold linear, kron, mix_w. cbn [flat_map map app length seq Nat.mul Nat.add nth]. rewrite L. repeat f_equal; unfold dot; cbn; lra.
Qed.
Lemma mix_values : forall a, (a < 2)%nat -> cd_value 1 3 (-3/2) (3/2) mix_w 0 (one_hot 2 a) = Ok (1 / 6).
Proof.
  intros a Ha. rewrite (@value_eq 1 2 3 (-3/2) (3/2)) by (auto; lia). f_equal. assert (E2 : exp (ln 2) = 2) by (apply exp_ln; lra). assert (E3 : exp (ln 3) = 3) by (apply exp_ln; lra). destruct a as [|[|a]]; [| |lia]; unfold mean_of, ev, prob, logit, atom, mix_w; cbn; rewrite ?E2, ?E3, ?exp_0; field.
Qed.
Theorem C128_ties_refuted : exists w t m m', (forall a, (a < 2)%nat -> cd_value 1 3 (-3/2) (3/2) w 0 (one_hot 2 a) = Ok m) /\ cd_target 1 2 3 (-3/2) (3/2) CQ w (mk_tb [0] [1] [0%nat] [one_hot 2 0]) = Ok [t] /\ bind (cat_mean 3 t) (di_post 3 (-3/2) (3/2)) = Ok m' /\ m' <> m.
Proof.
  destruct mix_target as (t & m & T & M & N). exists mix_w, t, (1/6), m. split; [exact mix_values|]. split; [|auto]. unfold cd_target, cd_next. cbn [tb_Snext collect]. unfold cd_values. cbn [seq collect]. rewrite !mix_values by lia. cbn [bind]. unfold check_width. cbn [forallb length Nat.eqb andb bind map]. replace (greedy_mix [1/6; 1/6]) with [1/2; 1/2]; [|unfold greedy_mix, rowmax; cbn; rewrite Rmax_left by lra; destruct (Req_EM_T (1/6) (1/6)); [|congruence]; cbn; repeat f_equal; lra].
  unfold cd_logits, p_net, function_type1. cbn [tb_Snext tb_In tb_Rn map]. rewrite vmap2_ok by auto. cbn [combine map fst snd bind]. change (one_hot 1 0) with [1]. rewrite mix_logits. exact T.
Qed.
Print Assumptions C128_ties_refuted.
Theorem C128_expected_refuted : exists w pi t m m', (forall a, (a < 2)%nat -> cd_value 1 3 (-3/2) (3/2) w 0 (one_hot 2 a) = Ok m) /\ cd_target_exp 1 2 3 (-3/2) (3/2) pi w (mk_tb [0] [1] [0%nat] [one_hot 2 0]) = Ok [t] /\ bind (cat_mean 3 t) (di_post 3 (-3/2) (3/2)) = Ok m' /\ m' <> m.
Proof.
  destruct mix_target as (t & m & T & M & N). exists mix_w, (fun _ => [0; 0]), t, (1/6), m. split; [exact mix_values|]. split; [|auto]. unfold cd_target_exp. replace (softmax [0; 0]) with [1/2; 1/2]; [|unfold softmax, sumexp; cbn; rewrite exp_0; repeat f_equal; lra].
  unfold cd_logits, p_net, function_type1. cbn [tb_Snext tb_In tb_Rn map]. replace (softmax [0; 0]) with [1/2; 1/2]; [|unfold softmax, sumexp; cbn; rewrite exp_0; repeat f_equal; lra]. rewrite vmap2_ok by auto. cbn [combine map fst snd bind]. change (one_hot 1 0) with [1]. rewrite mix_logits. exact T.
Qed.
Print Assumptions C128_expected_refuted.
