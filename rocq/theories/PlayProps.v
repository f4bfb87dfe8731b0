(** Property C125: what an agent earns that plays with a learned q-function.  Specifications in PlaySpec.v. *)
From Coq Require Import List Lia Bool Arith Reals Lra.
From Verif Require Import PyCommon CommonProofs UtilsModel UtilsSpec UtilsProofs2 UtilsProofs3 DistModel DistSpec DistProofs DistProofs2 LossModel LossSpec LossProofs QModel TDModel TDSpec TDProofs TDProofs2 TDProofs3 TDProofs4 PolicyModel PolicySpec PolicyProofs PolicyProofs2 PolicyProofs3 PolicyProofs4 PolicyProofs5 PolicyProps.
From Verif Require Import MeanSpec MeanProofs GumbelProps CoreModel CoreSpec LearnModel LearnSpec LearnProofs LearnProofs2 LearnProofs3 LearnProofs4 LearnProofs5 LearnProofs6 LearnProofs7 TracerModel WorkerModel LearnProps VtProps PlayModel PlaySpec PlayProofs PlayProofs2 PlayProofs3.
Import ListNotations.
Set Implicit Arguments.
Local Open Scope R_scope.

Lemma agent_greedy : forall nA f policy agent s gs, (1 <= nA)%nat -> width nA f -> value_based nA f policy -> greedy_agent nA policy agent -> noise nA gs -> exists a, agent s gs = Ok a /\ PolicySpec.optimal nA (qval nA f s) a.
Proof. intros nA f policy agent s gs HA W V [tau Ht|] N; [now apply mode_greedy|now apply mean_greedy]. Qed.

(** C125: an agent that follows the mode (or mean) of EpsilonGreedy or BoltzmannPolicy earns at most 2 D less per step than optimal, when the
    numbers that the q-function returns are at most D away from the optimal values q.  The last term is what can be earned after the last
    step.  The q-function may have any increasing value transform. *)
Theorem C125_greedy : forall nS nA dyn gamma q M g f D policy agent gss s m, (1 <= nA)%nat -> closed nS nA dyn -> 0 <= gamma <= 1 -> bellman nS nA dyn gamma (by_max nA) q ->
  (forall s a, (s < nS)%nat -> (a < nA)%nat -> Rabs (q s a) <= M) -> rising g -> close_to nS nA g f q D -> value_based nA f policy -> greedy_agent nA policy agent ->
  (forall gs, In gs gss -> noise nA gs) -> (s < nS)%nat -> is_maximum nA (q s) m ->
  exists h, play agent dyn s gss = Ok h /\ episode_of dyn (length gss) s h /\ (forall s' a r d, In (s', a, r, d) h -> PolicySpec.optimal nA (qval nA f s') a) /\
    m - 2 * D * geometric gamma (length gss) - gamma ^ length gss * M <= gain gamma h <= m + gamma ^ length gss * M.
Proof.
  intros nS nA dyn gamma q M g f D policy agent gss s m HA CL Hg BE HM Hr C V GA N Hs Hm. pose proof C as [W _].
  destruct (@play_gain nS nA dyn gamma q CL Hg BE M HM _ agent (noise nA) (2 * D)) with (xs := gss) (s := s) (m := m) as (h & P & E & AC & G); auto.
  - intros s0 x m0 Hs0 Hx Hm0. destruct (agent_greedy s0 HA W V GA Hx) as (a & Ea & O). exists a. split; auto. exact (@greedy_loss nS nA q f g Hr D s0 a m0 C Hs0 Hm0 O).
  - exists h. split; auto. split; auto. split; auto. intros s' a r d I. destruct (AC _ _ _ _ I) as (_ & x & Ix & Ex). destruct (agent_greedy s' HA W V GA (N x Ix)) as (b & Eb & O). congruence.
Qed.
Print Assumptions C125_greedy.

(** There is a distance D > 0 such that every q-function within D plays optimally. *)
Theorem C125_optimal_play : forall nS nA dyn gamma q M, (1 <= nA)%nat -> closed nS nA dyn -> 0 <= gamma <= 1 -> bellman nS nA dyn gamma (by_max nA) q ->
  (forall s a, (s < nS)%nat -> (a < nA)%nat -> Rabs (q s a) <= M) ->
  exists D, 0 < D /\ forall g f policy agent gss s m, rising g -> close_to nS nA g f q D -> value_based nA f policy -> greedy_agent nA policy agent ->
  (forall gs, In gs gss -> noise nA gs) -> (s < nS)%nat -> is_maximum nA (q s) m ->
  exists h, play agent dyn s gss = Ok h /\ episode_of dyn (length gss) s h /\ (forall s' a r d, In (s', a, r, d) h -> PolicySpec.optimal nA (q s') a) /\
    m - gamma ^ length gss * M <= gain gamma h <= m + gamma ^ length gss * M.
Proof.
  intros nS nA dyn gamma q M HA CL Hg BE HM. destruct (@all_gap nS nA q HA) as (d & Hd & GAP). exists (d / 4). split; [lra|]. intros g f policy agent gss s m Hr C V GA N Hs Hm. pose proof C as [W _].
  assert (OPT : forall s a m, (s < nS)%nat -> is_maximum nA (q s) m -> PolicySpec.optimal nA (qval nA f s) a -> (a < nA)%nat /\ q s a = m).
  { intros s0 a m0 Hs0 Hm0 O. destruct (@greedy_loss nS nA q f g Hr (d / 4) s0 a m0 C Hs0 Hm0 O) as [Ha L]. split; auto. apply (GAP s0 a m0); auto. lra. }
  destruct (@play_gain nS nA dyn gamma q CL Hg BE M HM _ agent (noise nA) 0) with (xs := gss) (s := s) (m := m) as (h & P & E & AC & G); auto.
  - intros s0 x m0 Hs0 Hx Hm0. destruct (agent_greedy s0 HA W V GA Hx) as (a & Ea & O). exists a. split; auto. destruct (OPT s0 a m0 Hs0 Hm0 O) as [Ha ->]. split; auto; lra.
  - exists h. split; auto. split; auto. split; [|lra]. intros s' a r d0 I. destruct (AC _ _ _ _ I) as (Hs' & x & Ix & Ex). destruct (agent_greedy s' HA W V GA (N x Ix)) as (b & Eb & O). assert (a = b) by congruence. subst b.
    destruct (max_exists HA (q s')) as [k Hk]. destruct (OPT s' a k Hs' Hk O) as [Ha Ek]. split; auto. intros c Hc. rewrite Ek. now apply (proj2 Hk).
Qed.
Print Assumptions C125_optimal_play.

(** The script frozen_lake/qlearning.py (with SGD): after enough episodes the greedy agent of the final episode acts optimally in every state,
    whatever the initial table. *)
Theorem C125_script : forall nS nA dyn gamma net, (1 <= nA)%nat -> closed nS nA dyn -> 0 <= gamma < 1 -> (net = table1 nS \/ net = table2 nS nA) ->
  exists q M, LearnSpec.optimal nS nA dyn gamma q /\ forall grads sub lr y th, differentiates nS nA dyn gamma net (target_q nA net) mse grads -> 0 < lr <= 1 -> sgd_learner lr sub y -> y_targ y = None ->
  q_params y = Node [0%nat] [Node [0%nat] [Leaf th]] -> length th = (nS * nA)%nat ->
  exists N, forall groups, (forall es, In es groups -> explores nS nA dyn es) -> (N <= length groups)%nat ->
  exists y' t' th', loop nA net (target_q nA net) mse grads sub 1 gamma y (nstep_reset nat nat) (concat (map (@concat _) groups)) = (y', t', Ok tt) /\ q_params y' = Node [0%nat] [Node [0%nat] [Leaf th']] /\
  forall policy agent gss s m, value_based nA (net th') policy -> greedy_agent nA policy agent -> (forall gs, In gs gss -> noise nA gs) -> (s < nS)%nat -> is_maximum nA (q s) m ->
  exists h, play agent dyn s gss = Ok h /\ episode_of dyn (length gss) s h /\ (forall s' a r d, In (s', a, r, d) h -> PolicySpec.optimal nA (q s') a) /\
    m - gamma ^ length gss * M <= gain gamma h <= m + gamma ^ length gss * M.
Proof.
  intros nS nA dyn gamma net HA CL Hg TB. destruct (@C103_bellman_solution nS nA dyn gamma net (target_q nA net) (by_max nA) HA CL Hg TB (alg_q nA net)) as (q & BE & _). pose proof (table_tabular TB) as T.
  exists q, (bound nS nA q). split; [now apply C103_optimal|]. intros grads sub lr y th GR Hlr SG YT Q L.
  destruct (@C125_optimal_play nS nA dyn gamma q (bound nS nA q) HA CL) as (D0 & HD0 & OP); auto; [lra|intros; now apply bound_ok|].
  set (D := bound nS nA (fun s a => tq nA th s a - q s a)). assert (P1 : 0 <= D) by apply bound_pos.
  assert (Hr : 0 <= 1 - lr * 1 * (1 - gamma) < 1). { assert (0 < lr * (1 - gamma) <= 1) by (split; [apply Rmult_lt_0_compat; lra|]; rewrite <- (Rmult_1_r 1); apply Rmult_le_compat; lra). lra. }
  destruct (@pow_small _ D D0 Hr P1 HD0) as [N HN]. exists N. intros groups EX LN.
  destruct (@C104_loop_rate nS nA dyn gamma net (target_q nA net) (by_max nA) mse grads sub lr 1 D q y groups) as (y' & t' & E & W); auto.
  - repeat (split; auto; try lra). + constructor. + now left.
  - apply (within_err _ _ _ T). exists th. split; auto. split; auto. intros s a Hs Ha. exact (@bound_ok nS nA (fun s a => tq nA th s a - q s a) s a Hs Ha).
  - destruct W as (th' & E' & L' & H). exists y', t', th'. split; auto. split; auto. intros policy agent gss s m V GA NO Hs Hm. apply (OP (fun x => x) (net th') policy agent); auto; [intros a b X; exact X|].
    split; [now apply (T th')|]. intros s0 a0 Hs0 Ha0. destruct (H s0 a0 Hs0 Ha0) as (x & X1 & X2). exists x. split; auto. eapply Rle_trans; [exact X2|]. now apply HN.
Qed.
Print Assumptions C125_script.

(** The hypotheses are met by the environment with two states of LearnProps.v and one episode that tries everything. *)
Example C125_script_ex : closed 2 2 small /\ differentiates 2 2 small (1/2) (table1 2) (target_q 2 (table1 2)) mse small_grads /\ sgd_learner (1/2) Nat.eqb (small_y None) /\ y_targ (small_y None) = None /\
  explores 2 2 small [[mkCall 0%nat 0%nat 0 false 0; mkCall 0%nat 1%nat 1 false (-1); mkCall 1%nat 1%nat 0 false 0; mkCall 0%nat 1%nat 1 false 0; mkCall 1%nat 0%nat 5 true 0]].
Proof. split; [exact small_closed|]. split; [exact small_differentiates|]. split; [split; [reflexivity|exact I]|]. split; [reflexivity|exact C104_ex]. Qed.

Lemma sampled : forall nS nA dyn gamma tau policy gss s F, (1 <= nA)%nat -> closed nS nA dyn -> 0 <= gamma <= 1 -> 0 < tau -> (forall s, (s < nS)%nat -> exists z, policy s = Ok z /\ length z = nA) ->
  (s < nS)%nat -> (forall gs, In gs gss -> noise nA gs) -> sampled_gain nA gamma tau policy dyn s gss F -> mean_units (length gss * nA) F (expected nA dyn gamma policy (length gss) s).
Proof.
  intros nS nA dyn gamma tau policy gss s F HA CL Hg Ht PO Hs N HF. eapply mean_units_ext; [|exact (@play_mean nS nA dyn gamma tau policy HA CL Hg Ht PO gss s Hs N)].
  intros us Lu HU. destruct (HF us Lu HU) as (h & P & ->). cbv beta. rewrite P. reflexivity.
Qed.

(** An agent that samples its actions from BoltzmannPolicy: the expected discounted sum of rewards, over the uniform numbers drawn in all
    steps.  Each step loses at most 2 D + temperature * ln(number of actions). *)
Theorem C125_boltzmann : forall nS nA dyn gamma q M f D t tau gss s m F, (1 <= nA)%nat -> closed nS nA dyn -> 0 <= gamma <= 1 -> bellman nS nA dyn gamma (by_max nA) q ->
  (forall s a, (s < nS)%nat -> (a < nA)%nat -> Rabs (q s a) <= M) -> close_to nS nA (fun x => x) f q D -> 0 < t -> 0 < tau -> (forall gs, In gs gss -> noise nA gs) -> (s < nS)%nat -> is_maximum nA (q s) m ->
  sampled_gain nA gamma tau (boltzmann_policy nA t f) dyn s gss F ->
  exists v, mean_units (length gss * nA) F v /\ m - (2 * D + t * ln (INR nA)) * geometric gamma (length gss) - gamma ^ length gss * M <= v <= m + gamma ^ length gss * M.
Proof.
  intros nS nA dyn gamma q M f D t tau gss s m F HA CL Hg BE HM C Ht Htau N Hs Hm HF. pose proof C as [W _]. assert (PO : forall s, (s < nS)%nat -> exists z, boltzmann_policy nA t f s = Ok z /\ length z = nA) by (intros; now apply boltzmann_ok).
  eexists. split; [exact (sampled HA CL Hg Htau PO Hs N HF)|]. apply (@expected_bounds nS nA dyn gamma (boltzmann_policy nA t f) HA CL Hg PO q BE M (2 * D + t * ln (INR nA)) HM); auto.
  intros s0 m0 Hs0 Hm0. now apply (@boltzmann_expected nS nA q f HA t D s0 m0).
Qed.
Print Assumptions C125_boltzmann.

(** An agent that samples its actions from EpsilonGreedy: each step loses at most 2 D + (eps + n / 10^15) * K, where no action costs more
    than K. *)
Theorem C125_epsilon_greedy : forall nS nA dyn gamma q M g f D eps K tau gss s m F, (1 <= nA)%nat -> closed nS nA dyn -> 0 <= gamma <= 1 -> bellman nS nA dyn gamma (by_max nA) q ->
  (forall s a, (s < nS)%nat -> (a < nA)%nat -> Rabs (q s a) <= M) -> rising g -> close_to nS nA g f q D -> 0 <= eps <= 1 -> (forall s m a, (s < nS)%nat -> (a < nA)%nat -> is_maximum nA (q s) m -> m - q s a <= K) ->
  0 < tau -> (forall gs, In gs gss -> noise nA gs) -> (s < nS)%nat -> is_maximum nA (q s) m -> sampled_gain nA gamma tau (eps_greedy nA eps f) dyn s gss F ->
  exists v, mean_units (length gss * nA) F v /\ m - (2 * D + (eps + INR nA * / 10 ^ 15) * K) * geometric gamma (length gss) - gamma ^ length gss * M <= v <= m + gamma ^ length gss * M.
Proof.
  intros nS nA dyn gamma q M g f D eps K tau gss s m F HA CL Hg BE HM Hr C He HK Htau N Hs Hm HF. pose proof C as [W _]. assert (PO : forall s, (s < nS)%nat -> exists z, eps_greedy nA eps f s = Ok z /\ length z = nA) by (intros; now apply eps_ok).
  eexists. split; [exact (sampled HA CL Hg Htau PO Hs N HF)|]. apply (@expected_bounds nS nA dyn gamma (eps_greedy nA eps f) HA CL Hg PO q BE M (2 * D + (eps + INR nA * / 10 ^ 15) * K) HM); auto.
  intros s0 m0 Hs0 Hm0. apply (@eps_expected nS nA q f HA eps g D K s0 m0); auto.
Qed.
Print Assumptions C125_epsilon_greedy.

(** * Cases *)
Lemma two_max : forall (h : nat -> R) m, h 0%nat <= m -> h 1%nat <= m -> (h 0%nat = m \/ h 1%nat = m) -> is_maximum 2 h m.
Proof. intros h m H0 H1 E. split; [destruct E; [exists 0%nat|exists 1%nat]; split; auto|]. intros [|[|a]] Ha; auto; lia. Qed.
(** One state, action 0 earns 1 for ever, action 1 earns 1 - L. *)
Definition dynL (L : R) (s a : nat) : nat * R * bool := (0%nat, (match a with O => 1 | _ => 1 - L end), false).
Definition qL (gamma L : R) (s a : nat) : R := match a with O => 1 / (1 - gamma) | _ => 1 / (1 - gamma) - L end.
Definition fL (gamma D L : R) : qfun nat R := Type2 (fun _ => [1 / (1 - gamma) - D; 1 / (1 - gamma) - L + D]).
Lemma closed_L : forall L, closed 1 2 (dynL L).
Proof. intros L s a Hs Ha. cbn. lia. Qed.
Lemma bellman_L : forall gamma L, 0 <= gamma < 1 -> 0 <= L -> bellman 1 2 (dynL L) gamma (by_max 2) (qL gamma L).
Proof.
  intros gamma L Hg HL s a Hs Ha. exists (1 / (1 - gamma)). split; [apply two_max; cbn; lra|]. unfold reward, ends, dynL, qL. cbn [fst snd]. destruct a; field; lra.
Qed.
Lemma close_L : forall gamma D L, 0 <= D -> close_to 1 2 (fun x => x) (fL gamma D L) (qL gamma L) D.
Proof.
  intros gamma D L HD. split; [intros s; reflexivity|]. intros s a Hs Ha. rewrite call_qval by (auto; intros x; reflexivity). eexists. split; [reflexivity|]. destruct a as [|[|a]]; [| |lia]; cbn [qval fL nth qL]; unfold Rabs; destruct (Rcase_abs _); lra.
Qed.
Lemma geometric_sum : forall gamma n, (1 - gamma) * geometric gamma n = 1 - gamma ^ n.
Proof. intros gamma n. induction n as [|n IH]; cbn [geometric pow]; [ring|]. replace ((1 - gamma) * (1 + gamma * geometric gamma n)) with ((1 - gamma) + gamma * ((1 - gamma) * geometric gamma n)) by ring. rewrite IH. ring. Qed.
(** The factor 2 cannot be improved: for every L < 2 D there are an environment and a q-function within D whose greedy agents lose L in every
    step. *)
Theorem C125_sharp : forall gamma D L, 0 <= gamma < 1 -> 0 <= L < 2 * D -> exists dyn q f m, closed 1 2 dyn /\ bellman 1 2 dyn gamma (by_max 2) q /\ close_to 1 2 (fun x => x) f q D /\ is_maximum 2 (q 0%nat) m /\
  forall policy agent gss, value_based 2 f policy -> greedy_agent 2 policy agent -> (forall gs, In gs gss -> noise 2 gs) ->
  exists h, play agent dyn 0%nat gss = Ok h /\ length h = length gss /\ gain gamma h = m - L * geometric gamma (length gss) - gamma ^ length gss * m.
Proof.
  intros gamma D L Hg HL. exists (dynL L), (qL gamma L), (fL gamma D L), (1 / (1 - gamma)). split; [apply closed_L|]. split; [apply bellman_L; lra|]. split; [apply close_L; lra|]. split; [apply two_max; cbn; lra|].
  intros policy agent gss V GA N. assert (X : exists h, play agent (dynL L) 0%nat gss = Ok h /\ length h = length gss /\ gain gamma h = (1 - L) * geometric gamma (length gss)).
  { induction gss as [|gs gss IH]; [exists []; cbn; repeat split; auto; unfold gain; cbn; ring|]. destruct IH as (h & P & LH & G); [intros; apply N; now right|].
    destruct (@agent_greedy 2 (fL gamma D L) policy agent 0%nat gs) as (a & Ea & O); auto; [intros x; reflexivity|apply N; now left|].
    assert (a = 1%nat). { destruct O as [Ha O]. destruct a as [|[|a]]; [|reflexivity|lia]. specialize (O 1%nat ltac:(lia)). cbn [qval fL nth] in O. lra. } subst a.
    cbn [play]. rewrite Ea. cbn [bind dynL]. rewrite P. cbn [bind]. eexists. split; [reflexivity|]. split; [cbn; lia|]. unfold gain in *. cbn [map discounted fst snd length geometric]. rewrite G. ring. }
  destruct X as (h & P & LH & G). exists h. split; auto. split; auto. rewrite G. assert (Z := geometric_sum gamma (length gss)). replace (gamma ^ length gss) with (1 - (1 - gamma) * geometric gamma (length gss)) by lra. field. lra.
Qed.
Print Assumptions C125_sharp.

(** Hypotheses of C125_greedy, C125_optimal_play, C125_boltzmann: discount factor 1/2, values 2 and 1, a q-function that is 1/4 off. *)
Example C125_greedy_ex : closed 1 2 (dynL 1) /\ bellman 1 2 (dynL 1) (1/2) (by_max 2) (qL (1/2) 1) /\ (forall s a, (s < 1)%nat -> (a < 2)%nat -> Rabs (qL (1/2) 1 s a) <= 2) /\ rising (fun x => x) /\
  close_to 1 2 (fun x => x) (fL (1/2) (1/4) 1) (qL (1/2) 1) (1/4) /\ value_based 2 (fL (1/2) (1/4) 1) (boltzmann_policy 2 (1/10) (fL (1/2) (1/4) 1)) /\
  greedy_agent 2 (boltzmann_policy 2 (1/10) (fL (1/2) (1/4) 1)) (mode_agent 2 1 (boltzmann_policy 2 (1/10) (fL (1/2) (1/4) 1))) /\ noise 2 [1; 2] /\ is_maximum 2 (qL (1/2) 1 0%nat) 2.
Proof.
  split; [apply closed_L|]. split; [apply bellman_L; lra|]. split; [intros s [|[|a]] Hs Ha; [| |lia]; cbn [qL]; unfold Rabs; destruct (Rcase_abs _); lra|]. split; [intros x y H; exact H|]. split; [apply close_L; lra|].
  split; [constructor; lra|]. split; [constructor; lra|]. split; [exact ex_noise|]. apply two_max; cbn [qL]; lra.
Qed.
(** Hypotheses of C125_boltzmann and C125_epsilon_greedy about the draws: every play succeeds, so that F exists. *)
Example C125_sampled_ex : exists F, sampled_gain 2 (1/2) 1 (eps_greedy 2 (1/5) (fL (1/2) (1/4) 1)) (dynL 1) 0%nat [[1; 2]; [1; 2]; [1; 2]] F /\
  forall s m a, (s < 1)%nat -> (a < 2)%nat -> is_maximum 2 (qL (1/2) 1 s) m -> m - qL (1/2) 1 s a <= 1.
Proof.
  set (f := fL (1/2) (1/4) 1). assert (W : width 2 f) by (intros x; reflexivity).
  exists (fun us => match play (draw_agent 2 1 (eps_greedy 2 (1/5) f)) (dynL 1) 0%nat (combine (per_step 2 3 us) [[1; 2]; [1; 2]; [1; 2]]) with Ok h => gain (1/2) h | Err _ => 0 end). split.
  - intros us Lu HU. assert (OKP : forall xs, (forall us gs, In (us, gs) xs -> length us = 2%nat /\ noise 2 gs) -> exists h, play (draw_agent 2 1 (eps_greedy 2 (1/5) f)) (dynL 1) 0%nat xs = Ok h).
    { induction xs as [|[vs gs] xs IH]; intros HX; [eexists; reflexivity|]. destruct (HX vs gs (or_introl eq_refl)) as [Lv N]. destruct (@eps_ok 2 f ltac:(lia) (1/5) 0%nat W ltac:(lra)) as (z & P & Lz). destruct (@call_spec 2 1 z vs gs) as (a & lp & E & Ha & _); auto; try lra; try lia.
      cbn [play]. unfold draw_agent at 1. rewrite P. cbn [bind fst snd]. rewrite E. cbn [bind fst dynL]. destruct IH as [h H]; [intros; apply HX; now right|]. rewrite H. eexists; reflexivity. }
    cbn [length] in Lu. do 6 (destruct us as [|? us]; [discriminate|]). destruct us; [|discriminate]. cbn [length per_step firstn skipn combine] in *.
    match goal with |- context [play _ _ _ ?xs] => destruct (OKP xs) as [h H] end; [|rewrite H; eauto]. intros vs gs I. repeat (destruct I as [I|I]; [injection I as <- <-; split; [reflexivity|exact ex_noise]|]). destruct I.
  - intros s m a Hs Ha [(b & Hb & <-) _]. destruct a as [|[|a]]; destruct b as [|[|b]]; try lia; cbn [qL]; lra.
Qed.

(** Training need not improve an agent from update to update, although it never increases the distance to the optimal values: one exact
    update on a genuine transition makes every greedy agent lose everything. *)
Definition dynU (s a : nat) : nat * R * bool := (0%nat, (match a with O => 1 | _ => 0 end), true).
Definition qU (s a : nat) : R := match a with O => 1 | _ => 0 end.
Definition rowU : fbatch nat := mk_fb [0%nat] [one_hot 2 0] [1] (mk_tb [1] [0] [0%nat] [one_hot 2 0]).
Lemma table_plays : forall th c policy agent gs gss, length th = 2%nat -> (c < 2)%nat -> (forall a, (a < 2)%nat -> a <> c -> nth a th 0 < nth c th 0) -> value_based 2 (table1 1 th) policy -> greedy_agent 2 policy agent ->
  (forall x, In x (gs :: gss) -> noise 2 x) -> play agent dynU 0%nat (gs :: gss) = Ok [(0%nat, c, qU 0 c, true)].
Proof.
  intros th c policy agent gs gss L Hc HC V GA N. assert (T := @table1_tabular 1 2). destruct (@agent_greedy 2 (table1 1 th) policy agent 0%nat gs) as (a & Ea & Ha & O); auto; [exact I|apply N; now left|].
  assert (Q : forall b, (b < 2)%nat -> qval 2 (table1 1 th) 0%nat b = nth b th 0). { intros b Hb. rewrite (tab_qval T th) by (auto; lia). reflexivity. }
  assert (a = c). { destruct (Nat.eq_dec a c) as [|NE]; auto. specialize (O c Hc). rewrite !Q in O by auto. specialize (HC a Ha NE). lra. } subst a. cbn [play]. rewrite Ea. cbn [bind dynU]. reflexivity.
Qed.
Theorem C125_improvement_refuted : exists dyn q y b y' th th' grads gamma, closed 1 2 dyn /\ bellman 1 2 dyn gamma (by_max 2) q /\ genuine 1 2 dyn gamma [(0, 0)%nat] b /\ weights_fit 1 1 b /\
  differentiates 1 2 dyn gamma (table1 1) (target_q 2 (table1 1)) mse grads /\ sgd_learner 1 Nat.eqb y /\ q_params y = Node [0%nat] [Node [0%nat] [Leaf th]] /\
  within 1 2 (table1 1) (q_params y) q 4 /\ ystep 2 (table1 1) (target_q 2 (table1 1)) mse grads Nat.eqb y (YUpdate b) = (y', Ok tt) /\ q_params y' = Node [0%nat] [Node [0%nat] [Leaf th']] /\ within 1 2 (table1 1) (q_params y') q 3 /\
  (forall policy agent gs gss, value_based 2 (table1 1 th) policy -> greedy_agent 2 policy agent -> (forall x, In x (gs :: gss) -> noise 2 x) -> exists h, play agent dyn 0%nat (gs :: gss) = Ok h /\ gain gamma h = 1) /\
  (forall policy agent gs gss, value_based 2 (table1 1 th') policy -> greedy_agent 2 policy agent -> (forall x, In x (gs :: gss) -> noise 2 x) -> exists h, play agent dyn 0%nat (gs :: gss) = Ok h /\ gain gamma h = 0).
Proof.
  assert (T := @table1_tabular 1 2). assert (GEN : genuine 1 2 dynU (1/2) [(0, 0)%nat] rowU).
  { split; [discriminate|]. do 6 (split; [reflexivity|]). intros [|i] s0 a0 s' E N; [|destruct i; discriminate]. injection E as <- <-. injection N as <-. repeat split; auto. }
  set (grads := analytic 1 2 (fun y h => h - y) (target_q 2 (table1 1))).
  assert (GR : differentiates 1 2 dynU (1/2) (table1 1) (target_q 2 (table1 1)) mse grads). { apply (@analytic_differentiates 1 2 ltac:(lia) (fun y h => h - y) (target_q 2 (table1 1)) (table1 1) mse1 dynU (1/2) (by_max 2)); auto; [exact mse_deriv|apply target_q_sound; auto]. }
  assert (TG : forall th targ, length targ = 2%nat -> target_q 2 (table1 1) th targ (fb_t rowU) = Ok [1]).
  { intros th targ Lt. destruct (@target_q_sound 1 2 ltac:(lia) (table1 1) T th targ (fb_t rowU)) as (out & E & BO); auto.
    { repeat split. } { intros s [<-|[]]. lia. }
    rewrite E. f_equal. destruct BO as [LB BO]. destruct out as [|x [|? ?]]; try discriminate. destruct (BO 0%nat 0%nat eq_refl) as (z & _ & Z). cbn in Z. f_equal. lra. }
  assert (SG : sgd_learner 1 Nat.eqb (startV [5; 3] None)) by (apply startV_sgd; exact I).
  destruct (@C102_table_update 1 2 (table1 1) (target_q 2 (table1 1)) mse (fun e => e) grads Nat.eqb 1 (startV [5; 3] None) [5; 3] [5; 3] [(0, 0)%nat] rowU [1]) as (y' & th' & Y & _ & Q' & L' & UP); auto; try discriminate; try reflexivity.
  { intros s a [J|[]]. injection J as <- <-. lia. }
  { apply (GR [5; 3] [5; 3] [(0, 0)%nat] rowU); auto. }
  assert (V0 : nth 0 th' 0 = 1). { destruct (UP 0%nat 0%nat) as (o & n & O & N & _ & Z); try lia. rewrite (tab_call T) in O, N by (auto; lia). injection O as <-. injection N as <-. unfold LearnProofs.tq in Z. cbn in Z. rewrite Z. unfold Rmax, Rmin. repeat destruct (Rle_dec _ _); lra. }
  assert (V1 : nth 1 th' 0 = 3). { destruct (UP 0%nat 1%nat) as (o & n & O & N & Z & _); try lia. rewrite (tab_call T) in O, N by (auto; lia). injection O as <-. injection N as <-. unfold LearnProofs.tq in Z. cbn in Z. apply Z. intros [J|[]]. discriminate. }
  exists dynU, qU, (startV [5; 3] None), rowU, y', [5; 3], th', grads, (1/2). split; [intros s a Hs Ha; cbn; lia|]. split.
  { intros s a Hs Ha. exists 1. split; [apply two_max; cbn; lra|]. unfold reward, ends. cbn. destruct a; cbn; lra. }
  split; [exact GEN|]. split. { intros w [<-|[]]. unfold Rmax, Rmin. repeat destruct (Rle_dec _ _); lra. }
  split; [exact GR|]. split; [exact SG|]. split; [reflexivity|]. split.
  { exists [5; 3]. do 2 (split; [reflexivity|]). intros s a Hs Ha. rewrite (tab_call T) by auto. eexists. split; [reflexivity|]. assert (s = 0%nat) by lia. subst s. destruct a as [|[|a]]; [| |lia]; unfold LearnProofs.tq; cbn; unfold Rabs; destruct (Rcase_abs _); lra. }
  split; [exact Y|]. split; [exact Q'|]. split.
  { exists th'. split; [exact Q'|]. split; [exact L'|]. intros s a Hs Ha. rewrite (tab_call T) by auto. eexists. split; [reflexivity|]. assert (s = 0%nat) by lia. subst s. unfold LearnProofs.tq. destruct a as [|[|a]]; [| |lia]; cbn [Nat.mul Nat.add qU]; [rewrite V0|rewrite V1]; unfold Rabs; destruct (Rcase_abs _); lra. }
  split; intros policy agent gs gss V GA N; eexists.
  - split; [apply (@table_plays [5; 3] 0%nat policy agent gs gss); auto; intros [|[|a]] Ha NE; [congruence| |lia]; cbn; lra|]. unfold gain. cbn. lra.
  - split; [apply (@table_plays th' 1%nat policy agent gs gss); auto; intros [|[|a]] Ha NE; [|congruence|lia]; rewrite V0, V1; lra|]. unfold gain. cbn. lra.
Qed.
Print Assumptions C125_improvement_refuted.
