(** The REINFORCE loop: what one episode does to the parameters. *)
From Coq Require Import List Lia Bool Arith Reals Lra.
From Verif Require Import PyCommon CommonProofs UtilsModel UtilsSpec UtilsProofs2 UtilsProofs3 DistModel DistSpec DistProofs LossModel LossSpec LossProofs QModel TDModel TDSpec TDProofs CoreModel CoreSpec CoreProofs CoreProofs2 TracerModel WorkerModel PolicyModel PolicySpec PolicyProofs PolicyProofs4 LearnModel LearnProofs3 PgModel PgSpec PgProofs.
Import ListNotations.
Set Implicit Arguments.
Local Open Scope R_scope.

Lemma records_nil : forall es, ~ records es []. Proof. intros [|[[s a] r] [|[[s' a'] r'] es]] H; exact H. Qed.
Lemma records_end : forall e es, ~ records [] (e :: es). Proof. intros e es H. exact H. Qed.
Lemma records_cons : forall s a r e es c cs, records ((s, a, r) :: e :: es) (c :: cs) -> c_s c = s /\ c_a c = a /\ c_r c = r /\ c_done c = false /\ c_logp c <= 0 /\ records (e :: es) cs.
Proof. intros s a r e es c cs H. exact H. Qed.
Section Loop.
Variables nA N : nat.
Variable net : list R -> nat -> list R.
Variable score : list R -> nat -> nat -> nat -> R.
Hypothesis SM : smooth_policy nA N net score.
Variable grads : list R -> fbatch nat -> list R -> list R.
Hypothesis GR : pg_differentiates nA N net grads.
Notation prob := (prob nA net).

(** Moving one coordinate. *)
Lemma coordinate_velocity : forall th i, length th = N -> (i < N)%nat -> velocity N (fun t => firstn i th ++ t :: skipn (S i) th) (nth i th 0) (fun j => if Nat.eqb j i then 1 else 0).
Proof.
  intros th i L Hi. split. { intros u. rewrite app_length. cbn [length]. rewrite firstn_length, skipn_length. lia. }
  intros j Hj. assert (Lf : length (firstn i th) = i) by (rewrite firstn_length; lia). destruct (Nat.eqb_spec j i) as [->|NE].
  - apply (@derivable_pt_lim_same (fun u => u)); [|apply derivable_pt_lim_id]. intros u. rewrite app_nth2 by lia. rewrite Lf, Nat.sub_diag. reflexivity.
  - apply (@derivable_pt_lim_same (fun _ => nth j th 0)); [|apply derivable_pt_lim_const]. intros u. rewrite <- (firstn_skipn i th) at 1. destruct (Nat.lt_ge_cases j i).
    + rewrite !app_nth1 by lia. reflexivity.
    + rewrite !app_nth2 by lia. rewrite Lf. destruct (j - i)%nat as [|k] eqn:E; [lia|]. cbn [nth]. assert (X : skipn i th = nth i th 0 :: skipn (S i) th); [|now rewrite X].
      clear - L Hi. revert i Hi. rewrite <- L. clear. induction th as [|x th IH]; intros [|i] Hi; cbn in Hi; try lia; [reflexivity|]. apply IH. lia.
Qed.
Lemma coordinate_same : forall (th : list R) i, length th = N -> (i < N)%nat -> firstn i th ++ nth i th 0 :: skipn (S i) th = th.
Proof.
  intros th i L Hi. rewrite <- (firstn_skipn i th) at 4. f_equal. revert i Hi. rewrite <- L. clear. induction th as [|x th IH]; intros [|i] Hi; cbn in Hi; try lia; [reflexivity|]. apply IH. lia.
Qed.
Lemma pick : forall (f : nat -> R) i, (i < N)%nat -> total (map (fun j => f j * (if Nat.eqb j i then 1 else 0)) (seq 0 N)) = f i.
Proof. intros f i Hi. rewrite (@total_pick _ N i Hi); [rewrite Nat.eqb_refl; lra|]. intros k Hk. destruct (Nat.eqb_spec k i); [contradiction|lra]. Qed.
Lemma coordinate_deriv : forall F dF th i, smooth N F dF -> length th = N -> (i < N)%nat -> derivable_pt_lim (fun t => F (firstn i th ++ t :: skipn (S i) th)) (nth i th 0) (dF th i).
Proof.
  intros F dF th i [S _] L Hi. pose proof (S _ _ _ (@coordinate_velocity th i L Hi)) as D. cbv beta in D. rewrite coordinate_same in D by auto. rewrite pick in D by auto. exact D.
Qed.

Lemma loss_one : forall b s a g p, fb_S b = [s] -> fb_A b = [one_hot nA a] -> fb_W b = [1] -> length p = N -> (a < nA)%nat -> pg_loss nA net b [g] p = Ok (Some (- (g * ln (prob p s a)))).
Proof.
  intros b s a g p HS HA HW L Ha. destruct SM as (H1 & H2 & _). unfold pg_loss, pg_objective. rewrite HS, HA, HW. cbn [vmap2 bind collect fst snd]. rewrite logp_boltzmann by auto. cbn [bind]. rewrite (@vanilla_value [1] [g] [ln (boltzmann nA (net p s) a)] 1) by (auto; lia). cbn [policy_loss bind option_map]. do 3 f_equal.
  unfold weighted_mean. cbn [seq map nth]. rewrite total_cons. change (total []) with 0. rewrite imp_id by (cbn; lra). cbn [nth]. change (INR 1) with 1. unfold PgSpec.prob. lra.
Qed.
Lemma grads_one : forall th b s a g i, length th = N -> fb_S b = [s] -> fb_A b = [one_hot nA a] -> fb_W b = [1] -> (a < nA)%nat -> (i < N)%nat -> nth i (grads th b [g]) 0 = - (g * score th s a i).
Proof.
  intros th b s a g i L HS HA HW Ha Hi. destruct (@GR th b g s a 1 L Ha HS HA HW) as [_ D]. specialize (D i ltac:(lia)). eapply uniqueness_limite; [exact D|].
  apply (@derivable_pt_lim_same (fun t => - (g * ln (prob (firstn i th ++ t :: skipn (S i) th) s a)))).
  - intros u. erewrite loss_one; eauto; [reflexivity|]. now apply (@coordinate_velocity th i L Hi).
  - apply (@derivable_pt_lim_opp (fun t => g * ln (prob (firstn i th ++ t :: skipn (S i) th) s a))). apply (@derivable_pt_lim_scal (fun t => ln (prob (firstn i th ++ t :: skipn (S i) th) s a))). destruct SM as (_ & _ & H3). apply (@coordinate_deriv (fun th => ln (prob th s a)) (fun th i => score th s a i)); auto.
Qed.
Lemma pg_step : forall lr l th b s a g, l_opt l = sgd lr -> f_params (l_func l) = wrap th -> length th = N -> fb_S b = [s] -> fb_A b = [one_hot nA a] -> fb_W b = [1] -> (a < nA)%nat ->
  exists l', pg_update nA net grads b [g] l = (l', Ok tt) /\ l_opt l' = sgd lr /\ f_params (l_func l') = wrap (map (fun i => nth i th 0 + lr * (g * score th s a i)) (seq 0 N)).
Proof.
  intros lr l th b s a g HO HP L HS HA HW Ha. assert (LG : length (grads th b [g]) = N). { destruct (@GR th b g s a 1 L Ha HS HA HW) as [LG _]. lia. }
  destruct (@update_ok unit (pg_grads_and_metrics nA net grads b [g]) l (wrap (map (@Some R) (grads th b [g]))) (f_state (l_func l)) tt
    (wrap (map (fun o => match o with Some v => - lr * v | None => 0 end) (map (@Some R) (grads th b [g])))) (l_ostate l)) as (p & l' & E & EP & F); auto.
  - unfold pg_grads_and_metrics. rewrite HP, unwrap_wrap, (@loss_one b s a g th HS HA HW L Ha). reflexivity.
  - apply wrap_no_nan.
  - rewrite HO. reflexivity.
  - rewrite HP. unfold wrap. cbn. now rewrite !map_length, LG, L.
  - exists l'. split; [exact E|]. red in F. subst l'. cbn. split; auto. rewrite HP in EP. apply wrap_entrywise in EP; [|rewrite !map_length; lia]. rewrite EP. f_equal. rewrite L. apply map_ext_in. intros i Hi. apply in_seq in Hi. rewrite map_map. rewrite (@nth_map_any _ _ _ (grads th b [g]) i 0 0) by lia. rewrite (@grads_one th b s a g i) by (auto; lia). lra.
Qed.

(** The parameters after an episode: its steps from the last to the first. *)
Variables lr gamma : R.
Hypothesis HG : 0 <= gamma <= 1.
Fixpoint ascend (th : list R) (es : list visit) : list R :=
  match es with
  | [] => th
  | (s, a, _) :: es' => let th1 := ascend th es' in map (fun i => nth i th1 0 + lr * (discounted gamma es * score th1 s a i)) (seq 0 N)
  end.
Lemma ascend_length : forall th es, length th = N -> length (ascend th es) = N.
Proof. intros th [|[[s a] r] es] L; cbn [ascend]; auto. now rewrite map_length, seq_length. Qed.
Definition visit_of (c : call nat nat) : visit := (c_s c, c_a c, c_r c).
Definition step_of (c : call nat nat) : step nat nat * R := (mkStep (c_s c) (c_a c) (c_logp c) 1 true, c_r c).
Definition call_ok (c : call nat nat) : Prop := (c_a c < nA)%nat /\ c_logp c <= 0.
Lemma drain_ok : forall th cs es l fuel, (length cs <= fuel)%nat -> Forall call_ok cs -> length th = N -> l_opt l = sgd lr -> f_params (l_func l) = wrap (ascend th es) ->
  exists l' t', rf_drain nA net grads gamma fuel l (mkM (map step_of cs) true (discounted gamma es)) = (l', t', Ok tt) /\ m_list t' = [] /\ l_opt l' = sgd lr /\ f_params (l_func l') = wrap (ascend th (map visit_of cs ++ es)).
Proof.
  intros th cs. induction cs as [|c cs IH] using rev_ind; intros es l fuel Hf HC L HO HP.
  - exists l, (mkM [] true (discounted gamma es)). destruct fuel; cbn; auto.
  - rewrite app_length in Hf. cbn [length] in Hf. destruct fuel as [|fuel]; [lia|]. cbn [rf_drain].
    apply Forall_app in HC. destruct HC as [HC H1]. inversion H1 as [|? ? [Ha Hp] _]; subst. clear H1.
    assert (B : mc_bool (mkM (map step_of (cs ++ [c])) true (discounted gamma es)) = true). { unfold mc_bool, mc_len. cbn [m_list m_done]. rewrite map_length, app_length. cbn [length]. rewrite Nat.add_1_r. reflexivity. }
    rewrite B. unfold mc_pop. rewrite B. cbn [negb m_list]. rewrite map_app, rev_app_distr. cbn [map rev app step_of m_g m_done st_s st_a st_logp st_w st_wnative]. rewrite rev_involutive. unfold from_single.
    destruct (Rle_dec (c_logp c) 0); [|lra]. destruct (Rle_dec 0 gamma); [|lra]. destruct (Rle_dec gamma 1); [|lra]. destruct (Rlt_dec 0 1); [|lra]. cbn [batch_of map fb_S fb_A fb_W fb_t tb_Rn x_s x_a x_w x_rn].
    match goal with |- context [pg_update _ _ _ ?b [?g] l] => destruct (@pg_step lr l (ascend th es) b (c_s c) (c_a c) g HO HP (@ascend_length th es L) eq_refl eq_refl eq_refl Ha) as (l1 & E1 & O1 & P1) end.
    rewrite E1. destruct (IH (visit_of c :: es) l1 fuel ltac:(lia) HC L O1) as (l' & t' & E2 & E3 & E4 & E5); [exact P1|]. exists l', t'. cbn [discounted visit_of] in E2. split; [exact E2|]. split; auto. split; auto. rewrite map_app. cbn [map]. rewrite <- app_assoc. exact E5.
Qed.
Lemma loop_ok : forall th es cs, records es cs -> forall pre l t, Forall call_ok (pre ++ cs) -> length th = N -> l_opt l = sgd lr -> f_params (l_func l) = wrap th -> m_list t = map step_of pre -> (pre <> [] -> m_done t = false) ->
  exists l' t', rf_loop nA net grads gamma l t cs = (l', t', Ok tt) /\ m_list t' = [] /\ l_opt l' = sgd lr /\ f_params (l_func l') = wrap (ascend th (map visit_of pre ++ es)).
Proof.
  intros th. induction es as [|[[s a] r] es IH]; intros cs RC pre l t HC L HO HP HT HD; [destruct cs; contradiction|].
  destruct cs as [|c cs]; [now apply records_nil in RC|]. cbn [rf_loop]. unfold rf_step.
  assert (AD : forall d, mc_add t (mkStep (c_s c) (c_a c) (c_logp c) 1 true) (c_r c) d = (mkM (map step_of (pre ++ [c])) d (if d then 0 else m_g t), None)).
  { intros d. unfold mc_add, mc_len. rewrite HT. assert (X : m_done t && negb (Nat.eqb (length (map step_of pre)) 0) = false). { destruct pre; [cbn; now rewrite andb_false_r|]. rewrite HD by discriminate. reflexivity. } rewrite X, map_app. reflexivity. }
  destruct es as [|e es].
  - destruct cs as [|c2 cs]; [|cbn in RC; destruct RC as (_ & _ & _ & _ & _ & RC); contradiction]. cbn in RC. destruct RC as (R1 & R2 & R3 & R4 & R5). rewrite R4, AD.
    destruct (@drain_ok th (pre ++ [c]) [] l (mc_len (mkM (map step_of (pre ++ [c])) true 0))) as (l' & t' & E1 & E2 & E3 & E4); auto.
    { unfold mc_len. cbn [m_list]. rewrite map_length. lia. }
    exists l', t'. cbn [discounted] in E1. rewrite E1. split; [reflexivity|]. split; auto. split; auto. rewrite map_app, app_nil_r in E4. cbn [map] in E4. unfold visit_of at 2 in E4. rewrite R1, R2, R3 in E4. exact E4.
  - apply records_cons in RC. destruct RC as (R1 & R2 & R3 & R4 & R5 & R6). destruct cs as [|c2 cs]; [now apply records_nil in R6|]. rewrite R4, AD.
    assert (ND : forall fuel, rf_drain nA net grads gamma fuel l (mkM (map step_of (pre ++ [c])) false (m_g t)) = (l, mkM (map step_of (pre ++ [c])) false (m_g t), Ok tt)). { intros [|fuel]; [reflexivity|]. cbn [rf_drain]. unfold mc_bool. cbn [m_done]. now rewrite andb_false_r. }
    rewrite ND. destruct (IH (c2 :: cs) R6 (pre ++ [c]) l (mkM (map step_of (pre ++ [c])) false (m_g t))) as (l' & t' & E1 & E2 & E3 & E4); auto. { now rewrite <- app_assoc. }
    exists l', t'. split; [exact E1|]. split; auto. split; auto. rewrite map_app, <- app_assoc in E4. cbn [map app] in E4. unfold visit_of at 2 in E4. rewrite R1, R2, R3 in E4. exact E4.
Qed.
End Loop.

Lemma records_calls : forall nA es cs, records es cs -> legal_actions nA es -> Forall (call_ok nA) cs.
Proof.
  intros nA. induction es as [|[[s a] r] es IH]; intros cs RC LA; [destruct cs; contradiction|]. destruct cs as [|c cs]; [now apply records_nil in RC|]. assert (Ha := LA s a r ltac:(now left)). destruct es as [|e es].
  - destruct cs as [|c2 cs]; [|cbn in RC; decompose [and] RC; contradiction]. cbn in RC. destruct RC as (R1 & R2 & R3 & R4 & R5). constructor; [split; auto; congruence|constructor].
  - apply records_cons in RC. destruct RC as (R1 & R2 & R3 & R4 & R5 & R6). destruct cs as [|c2 cs]; [now apply records_nil in R6|]. constructor; [split; auto; congruence|]. apply IH; auto. eapply legal_tail; eauto.
Qed.
Lemma ascend_trains : forall nA N net score grads gamma th, smooth_policy nA N net score -> pg_differentiates nA N net grads -> 0 <= gamma <= 1 -> length th = N -> trains nA net grads gamma th (fun lr es => ascend N score lr gamma th es).
Proof.
  intros nA N net score grads gamma th SM GR HG L lr es cs l t NE LA RC HO HP HT.
  destruct (@loop_ok nA N net score SM grads GR lr gamma HG th es cs RC [] l t) as (l' & t' & E1 & E2 & E3 & E4); auto.
  - cbn [app]. eapply records_calls; eauto.
  - congruence.
  - exists l', t'. auto.
Qed.
(** Whatever the loop is said to do is [ascend]. *)
Lemma records_exist : forall es, es <> [] -> exists cs, records es cs.
Proof.
  induction es as [|[[s a] r] es IH]; intros NE; [congruence|]. destruct es as [|e es].
  - exists [mkCall s a r true 0]. cbn. repeat split; auto. lra.
  - destruct IH as [cs C]; [discriminate|]. exists (mkCall s a r false 0 :: cs). destruct cs as [|c cs]; [now apply records_nil in C|]. repeat split; auto; cbn; lra.
Qed.
Lemma trains_ascend : forall nA N net score grads gamma th after, smooth_policy nA N net score -> pg_differentiates nA N net grads -> 0 <= gamma <= 1 -> length th = N -> trains nA net grads gamma th after ->
  forall lr es, es <> [] -> legal_actions nA es -> after lr es = ascend N score lr gamma th es.
Proof.
  intros nA N net score grads gamma th after SM GR HG L TR lr es NE LA. destruct (records_exist NE) as [cs RC].
  set (l := mkLearner KPolicy (mkFunc 0 (wrap th) (Node [] []) 0) (sgd lr) (Node [] [])). destruct (TR lr es cs l (mkM [] false 0) NE LA RC eq_refl eq_refl eq_refl) as (l1 & t1 & E1 & _ & _ & P1).
  destruct (@ascend_trains nA N net score grads gamma th SM GR HG L lr es cs l (mkM [] false 0) NE LA RC eq_refl eq_refl eq_refl) as (l2 & t2 & E2 & _ & _ & P2). rewrite E1 in E2. injection E2 as -> ->. rewrite P1 in P2. now injection P2.
Qed.
