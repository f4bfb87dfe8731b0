(** C113: training with prioritized replay (doc/examples/atari/dqn_per.py).  Specifications in PerSpec.v,
    DqnSpec.v and LearnSpec.v. *)
From Coq Require Import List Bool Arith ZArith Lia Reals Lra.
From Verif Require Import PyCommon CommonProofs SegTreeModel SegTreeSpec UtilsModel UtilsSpec UtilsProofs2 UtilsProofs3 WrappersProofs DistModel DistSpec DistProofs DistProofs2 DistProofs3 LossModel LossSpec LossProofs QModel QProofs QProps TDModel TDSpec CoreModel CoreSpec ReplayModel ReplaySpec PrioModel PrioSpec TracerModel TracerSpec WorkerModel PipeModel PipeSpec PipeProofs3 PipeProps LearnModel LearnSpec LearnProofs LearnProofs2 LearnProofs3 LearnProofs4 LearnProofs5 LearnProofs6 LearnProofs7 LearnProps DqnModel DqnSpec DqnProofs DqnProofs2 DqnProps PerModel PerSpec PerProofs.
Import ListNotations.
Set Implicit Arguments.
Local Open Scope R_scope.

(** Any program of recording, setting beta, learning from prioritized batches of at most B rows and synchronising, in any order, whatever
    the TD errors and the uniform numbers: no exception; every sampled row is a true transition of the environment with a weight in (0, 1];
    neither the values of q nor those of q_targ get further away from the solution of the Bellman equation. *)
Theorem C113_never_worse : forall nS nA dyn gamma net target val loss grads tds sub lr cl D B q warm h cap alpha beta0 eps0 w0 y t os,
  setting nS nA dyn gamma net target val loss grads lr (1/10) cl D B -> lr <= 1 -> bellman nS nA dyn gamma val q -> (forall th targ b, length (tds th targ b) = length (fb_S b)) ->
  prio_init h cap alpha beta0 eps0 = Ok w0 -> sgd_learner lr sub y -> y_targ y = Some t -> within nS nA net (q_params y) q D -> within nS nA net (targ_params y) q D ->
  (forall o, In o os -> trop_ok B o) -> follows nS nA dyn (steps_of os) -> (Z.of_nat (length (steps_of os)) <= 2147483648)%Z ->
  exists y' p' log, per_run nA net target loss grads tds sub 1 gamma warm y (mkPP (nstep_reset nat nat) w0) os = (y', p', Ok log) /\
    within nS nA net (q_params y') q D /\ within nS nA net (targ_params y') q D /\
    forall out, In (EvBatch out) log -> (1 <= length out <= B)%nat /\ forall o, In o out -> exists x w k, o = (x, w, [Z.of_nat k]) /\ 0 < w <= 1 /\
      (x_s x < nS)%nat /\ (x_a x < nA)%nat /\ x_rn x = reward dyn (x_s x) (x_a x) /\
      (ends dyn (x_s x) (x_a x) = true -> x_in x = 0) /\ (ends dyn (x_s x) (x_a x) = false -> x_in x = gamma /\ x_s_next x = next dyn (x_s x) (x_a x)).
Proof.
  intros nS nA dyn gamma net target val loss grads tds sub lr cl D B q warm h cap alpha beta0 eps0 w0 y t os SET L1 BE HT HI SG YT W1 W2 OK F SM.
  destruct (@per_whole nS nA dyn gamma net target val loss grads tds sub lr cl D B SET L1 HT q BE warm h cap alpha beta0 eps0 w0 HI y t os SG YT W1 W2 OK F SM) as (y' & p' & log & R & EO & A1 & A2 & _).
  exists y', p', log. split; auto. split; auto. split; auto. intros out I. destruct (EO _ I) as [L H]. split; auto. intros o Io. destruct (H o Io) as (x & w & k & -> & (Z1 & Z2 & Z3 & Z4 & Z5 & Z6) & W). exists x, w, k. split; auto. split; auto. do 3 (split; auto).
  split; intros E; rewrite E in Z6; auto.
Qed.
Print Assumptions C113_never_worse.
(** Each part of the training in which every state-action pair is sampled and then the target network is synchronised with at least tau0
    multiplies the distance by at most 1 - tau0 * lr / 10 * cl / B * (1 - gamma): importance weights count at least 1/10. *)
Theorem C113_rate : forall nS nA dyn gamma net target val loss grads tds sub lr cl D B q warm h cap alpha beta0 eps0 w0 y t os,
  setting nS nA dyn gamma net target val loss grads lr (1/10) cl D B -> lr <= 1 -> bellman nS nA dyn gamma val q -> (forall th targ b, length (tds th targ b) = length (fb_S b)) ->
  prio_init h cap alpha beta0 eps0 = Ok w0 -> sgd_learner lr sub y -> y_targ y = Some t -> within nS nA net (q_params y) q D -> within nS nA net (targ_params y) q D ->
  (forall o, In o os -> trop_ok B o) -> follows nS nA dyn (steps_of os) -> (Z.of_nat (length (steps_of os)) <= 2147483648)%Z ->
  exists y' p' log, per_run nA net target loss grads tds sub 1 gamma warm y (mkPP (nstep_reset nat nat) w0) os = (y', p', Ok log) /\
    forall tau0 N, 0 < tau0 <= 1 -> per_sweeps nS nA tau0 N log ->
    let D' := (1 - tau0 * (lr / 10 * cl / INR B * (1 - gamma))) ^ N * D in within nS nA net (q_params y') q D' /\ within nS nA net (targ_params y') q D'.
Proof.
  intros nS nA dyn gamma net target val loss grads tds sub lr cl D B q warm h cap alpha beta0 eps0 w0 y t os SET L1 BE HT HI SG YT W1 W2 OK F SM.
  destruct (@per_whole nS nA dyn gamma net target val loss grads tds sub lr cl D B SET L1 HT q BE warm h cap alpha beta0 eps0 w0 HI y t os SG YT W1 W2 OK F SM) as (y' & p' & log & R & _ & _ & _ & A).
  exists y', p', log. split; auto. intros tau0 N Ht SW D'. specialize (A tau0 N Ht SW). unfold D'. replace (lr / 10) with (lr * (1 / 10)) by (unfold Rdiv; ring). exact A.
Qed.
Print Assumptions C113_rate.
(** Q-learning with prioritized replay finds the optimal values, whatever the initial tables and the priorities. *)
Theorem C113_optimal : forall nS nA dyn gamma net, (1 <= nA)%nat -> closed nS nA dyn -> 0 <= gamma < 1 -> (net = table1 nS \/ net = table2 nS nA) ->
  exists q, optimal nS nA dyn gamma q /\
  forall grads tds sub lr B tau0 warm h cap alpha beta0 eps0 w0 y t th targ, differentiates nS nA dyn gamma net (target_q nA net) mse grads -> 0 < lr <= 1 -> (1 <= B)%nat -> 0 < tau0 <= 1 ->
  (forall th targ b, length (tds th targ b) = length (fb_S b)) -> prio_init h cap alpha beta0 eps0 = Ok w0 -> sgd_learner lr sub y -> y_targ y = Some t ->
  q_params y = Node [0%nat] [Node [0%nat] [Leaf th]] -> f_params t = Node [0%nat] [Node [0%nat] [Leaf targ]] -> length th = (nS * nA)%nat -> length targ = (nS * nA)%nat ->
  forall eps, 0 < eps -> exists N, forall os, (forall o, In o os -> trop_ok B o) -> follows nS nA dyn (steps_of os) -> (Z.of_nat (length (steps_of os)) <= 2147483648)%Z ->
  exists y' p' log, per_run nA net (target_q nA net) mse grads tds sub 1 gamma warm y (mkPP (nstep_reset nat nat) w0) os = (y', p', Ok log) /\
    forall M, (N <= M)%nat -> per_sweeps nS nA tau0 M log -> within nS nA net (q_params y') q eps.
Proof.
  intros nS nA dyn gamma net HA CL Hg TB. destruct (@C103_bellman_solution nS nA dyn gamma net (target_q nA net) (by_max nA) HA CL Hg TB (alg_q nA net)) as (q & BE & _). exists q. split; [now apply C103_optimal|].
  intros grads tds sub lr B tau0 warm h cap alpha beta0 eps0 w0 y t th targ GR Hlr HB Ht HT HI SG YT Q P L Lt eps He. pose proof (table_tabular TB) as T.
  set (D := bound nS nA (fun s a => tq nA th s a - q s a) + bound nS nA (fun s a => tq nA targ s a - q s a)). assert (P1 := @bound_pos nS nA (fun s a => tq nA th s a - q s a)). assert (P2 := @bound_pos nS nA (fun s a => tq nA targ s a - q s a)).
  assert (SET : setting nS nA dyn gamma net (target_q nA net) (by_max nA) mse grads lr (1/10) 1 D B) by (repeat (split; auto; try lra; try lia); [constructor|now left|unfold D; lra]).
  assert (HD : 0 <= D) by (unfold D; lra). pose proof (beta_le SET) as Hb. unfold beta in Hb.
  set (r := 1 - tau0 * (lr / 10 * 1 / INR B * (1 - gamma))).
  assert (Hr : 0 <= r < 1). { unfold r. replace (lr / 10 * 1 / INR B) with (lr * (1/10) * 1 / INR B) by (unfold Rdiv; ring). assert (0 < lr * (1/10) * 1 / INR B * (1 - gamma) <= 1) by (split; [apply Rmult_lt_0_compat; lra|nra]). assert (0 < tau0 * (lr * (1/10) * 1 / INR B * (1 - gamma)) <= 1) by (split; [apply Rmult_lt_0_compat; lra|nra]). lra. }
  destruct (@pow_small r D eps Hr HD He) as [N HN]. exists N. intros os OK F SM.
  destruct (@C113_rate nS nA dyn gamma net (target_q nA net) (by_max nA) mse grads tds sub lr 1 D B q warm h cap alpha beta0 eps0 w0 y t os SET (proj2 Hlr) BE HT HI SG YT) as (y' & p' & log & R & W); auto.
  - apply (within_err _ _ _ T). exists th. split; auto. split; auto. intros s a Hs Ha. eapply Rle_trans; [exact (@bound_ok nS nA (fun s a => tq nA th s a - q s a) s a Hs Ha)|]. unfold D. lra.
  - apply (within_err _ _ _ T). exists targ. split; [unfold targ_params; rewrite YT; exact P|]. split; auto. intros s a Hs Ha. eapply Rle_trans; [exact (@bound_ok nS nA (fun s a => tq nA targ s a - q s a) s a Hs Ha)|]. unfold D. lra.
  - exists y', p', log. split; auto. intros M LM SW. destruct (W tau0 M Ht SW) as [W' _]. destruct W' as (th' & E' & L' & H). exists th'. split; auto. split; auto. intros s a Hs Ha. destruct (H s a Hs Ha) as (x & X1 & X2). exists x. split; auto. eapply Rle_trans; [exact X2|]. apply HN. exact LM.
Qed.
Print Assumptions C113_optimal.
(** The buffer holds one transition for each step recorded, as far as they are known; the last cap of them can be sampled, in every
    combination, repetitions included. *)
Theorem C113_any_batch : forall nS nA dyn gamma net target val loss grads tds sub lr cl D B q warm h cap alpha beta0 eps0 w0 y t os,
  setting nS nA dyn gamma net target val loss grads lr (1/10) cl D B -> lr <= 1 -> bellman nS nA dyn gamma val q -> (forall th targ b, length (tds th targ b) = length (fb_S b)) ->
  prio_init h cap alpha beta0 eps0 = Ok w0 -> sgd_learner lr sub y -> y_targ y = Some t -> within nS nA net (q_params y) q D -> within nS nA net (targ_params y) q D ->
  (forall o, In o os -> trop_ok B o) -> follows nS nA dyn (steps_of os) -> (Z.of_nat (length (steps_of os)) <= 2147483648)%Z ->
  exists y' p' log outs, per_run nA net target loss grads tds sub 1 gamma warm y (mkPP (nstep_reset nat nat) w0) os = (y', p', Ok log) /\
    Forall2 (fun d x => nstep_spec 1 gamma false (fst (fst d)) (snd (fst d)) (snd d) x) (nstep_due 1 (played (steps_of os))) outs /\
    forall xs, xs <> [] -> (length xs <= B)%nat -> (warm < Nat.min cap (length outs))%nat -> (forall x, In x xs -> In x (ReplaySpec.lastn cap outs)) ->
    exists us, trop_ok B (TLearn us) /\ length us = length xs /\ exists y'' p'' out,
      per_run nA net target loss grads tds sub 1 gamma warm y (mkPP (nstep_reset nat nat) w0) (os ++ [TLearn us]) = (y'', p'', Ok (log ++ [EvBatch out])) /\ map (fun o => fst (fst o)) out = xs.
Proof.
  intros nS nA dyn gamma net target val loss grads tds sub lr cl D B q warm h cap alpha beta0 eps0 w0 y t os SET L1 BE HT HI SG YT W1 W2 OK F SM.
  exact (@per_any nS nA dyn gamma net target val loss grads tds sub lr cl D B SET L1 HT q BE warm h cap alpha beta0 eps0 w0 HI y t os SG YT W1 W2 OK F SM).
Qed.
Print Assumptions C113_any_batch.

(** The episode of C112 in a buffer of capacity 8 with beta changed on the way; a batch with all state-action pairs, a synchronisation. *)
Definition per_w0 : pworld (single nat nat) := mkPW [] (mkPB 8 (6/10) (4/10) (1/10) (repeat None 8) (sumtree_init 8) 0).
Definition per_os : list trop := TBeta (1/2) :: map TRecord dqn_es.
Definition ex_tds (th targ : list R) (b : fbatch nat) : list R := map (fun s => INR s - 1) (fb_S b).
Example C113_example : (forall D, 0 <= D -> setting 2 2 small (1/2) (table1 2) (target_q 2 (table1 2)) (by_max 2) mse small_grads (1/2) (1/10) 1 D 4) /\
  (forall th targ b, length (ex_tds th targ b) = length (fb_S b)) /\ prio_init [] 8 (6/10) (4/10) (1/10) = Ok per_w0 /\
  sgd_learner (1/2) Nat.eqb (small_y (Some small_targ)) /\ y_targ (small_y (Some small_targ)) = Some small_targ /\
  exists us, let os := per_os ++ [TLearn us; TSync (1/10)] in (forall o, In o os -> trop_ok 4 o) /\ follows 2 2 small (steps_of os) /\ (Z.of_nat (length (steps_of os)) <= 2147483648)%Z /\
  exists y' p' log, per_run 2 (table1 2) (target_q 2 (table1 2)) mse small_grads ex_tds Nat.eqb 1 (1/2) 4 (small_y (Some small_targ)) (mkPP (nstep_reset nat nat) per_w0) os = (y', p', Ok log) /\ per_sweeps 2 2 (1/10) 1 log.
Proof.
  assert (SETS : forall D, 0 <= D -> setting 2 2 small (1/2) (table1 2) (target_q 2 (table1 2)) (by_max 2) mse small_grads (1/2) (1/10) 1 D 4).
  { intros D' HD'. split; [lia|]. split; [exact small_closed|]. split; [lra|]. split; [now left|]. split; [constructor|]. split; [left; auto|]. split; [exact small_differentiates|]. split; [lra|]. split; [lra|]. split; [lra|]. split; [lia|lra]. }
  assert (SG : sgd_learner (1/2) Nat.eqb (small_y (Some small_targ))) by (split; [reflexivity|split; reflexivity]).
  assert (FO : follows 2 2 small (steps_of per_os)). { cbn. repeat (split; [try lia; try lra; try reflexivity; try (intros _; reflexivity)|]). repeat (split; try lia; try lra; try discriminate; auto). }
  assert (HT : forall th targ b, length (ex_tds th targ b) = length (fb_S b)) by (intros; apply map_length).
  assert (HI : prio_init (Y := single nat nat) [] 8 (6/10) (4/10) (1/10) = Ok per_w0). { unfold prio_init. cbn [Nat.eqb]. repeat (match goal with |- context [Rle_dec ?a ?b] => destruct (Rle_dec a b); [exfalso; lra|] end). reflexivity. }
  split; [exact SETS|]. split; [exact HT|]. split; [exact HI|]. split; [exact SG|]. split; [reflexivity|].
  destruct (@C103_bellman_solution 2 2 small (1/2) (table1 2) (target_q 2 (table1 2)) (by_max 2)) as (q & BE & _); [lia|exact small_closed|lra|now left|constructor|].
  set (D := bound 2 2 (fun s a => tq 2 [0; 0; 0; 0] s a - q s a)). assert (HD : 0 <= D) by apply bound_pos.
  assert (W : within 2 2 (table1 2) (wrap [0; 0; 0; 0]) q D). { apply (within_err _ _ _ (@table1_tabular 2 2)). exists [0; 0; 0; 0]. split; [reflexivity|]. split; [reflexivity|]. intros s a Hs Ha. exact (@bound_ok 2 2 (fun s a => tq 2 [0; 0; 0; 0] s a - q s a) s a Hs Ha). }
  assert (OK : forall o, In o per_os -> trop_ok 4 o) by (intros o Io; cbn in Io; repeat (destruct Io as [<-|Io]; [cbn; try lra; exact I|]); destruct Io).
  destruct (@C113_any_batch 2 2 small (1/2) (table1 2) (target_q 2 (table1 2)) (by_max 2) mse small_grads ex_tds Nat.eqb (1/2) 1 D 4 q 4 [] 8 (6/10) (4/10) (1/10) per_w0 (small_y (Some small_targ)) small_targ per_os) as (y1 & p1 & log & outs & R1 & DU & AB); auto; try lra; [cbn; lia|].
  assert (OU : exists a b c d e, outs = [a; b; c; d; e] /\ map (fun x => (x_s x, x_a x)) outs = [(0, 0); (0, 1); (1, 1); (0, 1); (1, 0)]%nat).
  { cbn in DU. repeat (match goal with H : Forall2 _ (_ :: _) _ |- _ => inversion H; clear H; subst | H : Forall2 _ [] _ |- _ => inversion H; clear H; subst end).
    do 5 eexists. split; [reflexivity|]. cbn [map]. repeat (match goal with H : nstep_spec _ _ _ _ _ _ _ |- _ => destruct H as (? & ? & H & -> & -> & _); cbn in H; injection H; clear H; intros; subst end). reflexivity. }
  destruct OU as (a & b & c & d & e & -> & OU). cbn [map] in OU. injection OU as A1 A2 B1 B2 C1 C2 _ _ E1 E2.
  destruct (AB [a; b; c; e]) as (us & TO & LU & y2 & p2 & out & R2 & MO); [discriminate|cbn; lia|cbn; lia|intros x Ix; cbn in *; intuition auto|].
  exists us. intros os. assert (OS : steps_of os = steps_of per_os) by reflexivity. rewrite OS.
  assert (OKS : forall o, In o os -> trop_ok 4 o). { intros o Io. unfold os in Io. apply in_app_or in Io. destruct Io as [Io|[<-|[<-|[]]]]; auto. cbn. lra. }
  split; [exact OKS|]. split; [exact FO|]. split; [cbn; lia|].
  destruct (@C113_never_worse 2 2 small (1/2) (table1 2) (target_q 2 (table1 2)) (by_max 2) mse small_grads ex_tds Nat.eqb (1/2) 1 D 4 q 4 [] 8 (6/10) (4/10) (1/10) per_w0 (small_y (Some small_targ)) small_targ os) as (y3 & p3 & log3 & R3 & _); auto; try lra; [rewrite OS; cbn; lia|].
  exists y3, p3, log3. split; [exact R3|]. unfold os in R3. change (per_os ++ [TLearn us; TSync (1/10)]) with (per_os ++ [TLearn us] ++ [TSync (1/10)]) in R3. rewrite app_assoc, per_run_app, R2 in R3. cbn [per_run per_step] in R3.
  destruct (ystep 2 (table1 2) (target_q 2 (table1 2)) mse small_grads Nat.eqb y2 (YSync (1/10))) as [y4 [u|x]]; [|discriminate]. injection R3 as <- <- <-.
  exists [(log ++ [EvBatch out]) ++ [EvSync (1/10)]], []. split; [cbn; now rewrite !app_nil_r|]. split; [reflexivity|]. intros part [<-|[]]. exists (log ++ [EvBatch out]), (1/10), []. split; [reflexivity|]. split; [lra|].
  intros s z Hs Hz. assert (X : exists x, In x [a; b; c; e] /\ x_s x = s /\ x_a x = z).
  { destruct s as [|[|s]]; [| |lia]; (destruct z as [|[|z]]; [| |lia]); [exists a|exists b|exists e|exists c]; cbn; auto 10. }
  destruct X as (x & Ix & X1 & X2). rewrite <- MO in Ix. apply in_map_iff in Ix. destruct Ix as (((x' & w) & i) & Ex & Ix). cbn in Ex. subst x'. exists out, x, w, i. split; [apply in_or_app; right; now left|]. auto.
Qed.
(** Exceptions come out of the recording loop, and the buffer stays as it was: of the constructor of transitions, if the last step of an
    episode is not valid, and of the target, while the TD error of a popped transition is computed. *)
Theorem C113_raises : forall nS nA gamma net target loss grads tds sub n warm y (p : ppipe nat nat (nstate nat nat)) e, (1 <= n)%nat -> 0 <= gamma <= 1 -> pp_tracer p = mkN [] [] false -> (es_done e = true \/ es_trunc e = true) ->
  ((0 < st_logp (es_step e) \/ st_w (es_step e) <= 0 \/ st_wnative (es_step e) = false) ->
    exists t', per_step nA net target loss grads tds sub n gamma warm y p (TRecord e) = (y, mkPP t' (pp_world p), Err EType)) /\
  (forall th targ x, st_logp (es_step e) <= 0 -> 0 < st_w (es_step e) -> st_wnative (es_step e) = true -> (net = table1 nS \/ net = table2 nS nA) -> (st_s (es_step e) < nS)%nat -> (st_a (es_step e) < nA)%nat ->
    q_params y = Node [0%nat] [Node [0%nat] [Leaf th]] -> length th = (nS * nA)%nat -> targ_params y = Node [0%nat] [Node [0%nat] [Leaf targ]] -> (forall b, target th targ b = Err x) ->
    exists t', per_step nA net target loss grads tds sub n gamma warm y p (TRecord e) = (y, mkPP t' (pp_world p), Err x)).
Proof.
  intros nS nA gamma net target loss grads tds sub n warm y p [x r dn tr] Hn Hg Ht Hd. cbn [es_step es_done es_trunc] in *. assert (FL : dn || tr = true) by (destruct Hd as [-> | ->]; auto using orb_true_r).
  assert (PW : 0 <= gamma ^ n <= 1) by (split; [apply pow_le; lra|]; rewrite <- (pow1 n); apply pow_incr; lra).
  assert (PN : Nat.leb n 0 = false) by (apply Nat.leb_gt; lia).
  unfold per_step, flag_of. cbn [es_step es_r es_done es_trunc]. rewrite Ht. unfold nstep_add, nstep_len. cbn [n_done n_s n_r andb app length]. rewrite FL. cbn [per_drain pp_tracer]. unfold nstep_bool, nstep_pop, nstep_len. cbn [n_done n_s n_r length Nat.eqb negb andb orb nstep_bool nstep_len]. unfold nstep_bool, nstep_len. cbn [n_s n_done length Nat.eqb negb andb orb]. rewrite PN. cbn [pp_world].
  split.
  - intros BAD. unfold from_single. destruct (Rle_dec (st_logp x) 0) as [L|L]; [|eexists; reflexivity]. destruct (Rle_dec 0 (gamma ^ n)) as [|E]; [|exfalso; lra]. destruct (Rle_dec (gamma ^ n) 1) as [|E]; [|exfalso; lra]. destruct (Rle_dec (st_logp x) 0) as [|E]; [|exfalso; lra].
    destruct (st_wnative x) eqn:WN; [|eexists; reflexivity]. destruct (Rlt_dec 0 (st_w x)) as [W|W]; [|eexists; reflexivity]. exfalso. destruct BAD as [X|[X|X]]; [lra|lra|discriminate].
  - intros th targ ex L W WN TB Hs Ha Q LT TG TE. unfold from_single. destruct (Rle_dec (st_logp x) 0) as [_|E]; [|exfalso; lra]. destruct (Rle_dec 0 (gamma ^ n)) as [_|E]; [|exfalso; lra]. destruct (Rle_dec (gamma ^ n) 1) as [_|E]; [|exfalso; lra]. destruct (Rle_dec (st_logp x) 0) as [_|E]; [|exfalso; lra].
    rewrite WN. destruct (Rlt_dec 0 (st_w x)) as [_|E]; [|exfalso; lra]. unfold y_td_error. rewrite Q, TG. cbn [unwrap]. unfold q_loss, batch_of. cbn [map fb_S fb_A x_s x_a].
    pose proof (@tab_eval nS nA net (table_tabular TB) th [(st_s x, st_a x)] LT) as EV. cbn [map fst snd] in EV. rewrite EV by (intros s0 a0 [E0|[]]; injection E0 as <- <-; auto). cbn [bind]. rewrite TE. cbn [bind]. eexists. reflexivity.
Qed.
Print Assumptions C113_raises.
Example C113_raises_ex : forall x, exists t', per_step 2 (table1 2) (fun _ _ _ => Err x) mse small_grads ex_tds Nat.eqb 1 (1/2) 4 (small_y (Some small_targ)) (mkPP (nstep_reset nat nat) per_w0) (TRecord (mkES (mkStep 1%nat 0%nat 0 1 true) 3 false true)) = (small_y (Some small_targ), mkPP t' per_w0, Err x).
Proof.
  intros x. destruct (@C113_raises 2 2 (1/2) (table1 2) (fun _ _ _ => Err x) mse small_grads ex_tds Nat.eqb 1 4 (small_y (Some small_targ)) (mkPP (nstep_reset nat nat) per_w0) (mkES (mkStep 1%nat 0%nat 0 1 true) 3 false true)) as [_ H]; [lia|lra|reflexivity|now right|].
  apply (H [0; 0; 0; 0] [0; 0; 0; 0] x); auto; cbn; lra || lia || reflexivity.
Qed.
