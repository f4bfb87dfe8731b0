(** The actor-critic loop: many episodes, existence of gradients, tables stay bounded. *)
From Coq Require Import List Lia Bool Arith Reals Lra.
From Verif Require Import PyCommon CommonProofs UtilsModel UtilsSpec UtilsProofs2 UtilsProofs3 WrappersProofs DistModel DistSpec DistProofs LossModel LossSpec LossProofs QModel TDModel TDSpec TDProofs TDProofs3 CoreModel CoreSpec CoreProofs CoreProofs2 TracerModel TracerSpec TracerProofs WorkerModel PolicyModel PolicySpec PolicyProofs PolicyProofs4 LearnModel LearnProofs2 LearnProofs3 PgModel PgSpec PgProofs PgProofs2 PgProofs3 PgProofs4 AcModel AcSpec AcProofs.
Import ListNotations.
Set Implicit Arguments.
Local Open Scope R_scope.

Section Loop.
Variables nA Nv N : nat.
Variable vnet : list R -> nat -> R.
Variable slope : list R -> nat -> nat -> R.
Hypothesis SV : smooth_value Nv vnet slope.
Variable loss : list R -> list R -> option (list R) -> outcome (option R).
Variable pull : R -> R.
Hypothesis PB : pulls_by loss pull.
Variable vgrads : list R -> list R -> fbatch nat -> list R.
Hypothesis VG : v_differentiates Nv vnet loss vgrads.
Variable dgrads : list R -> list R -> list R.
Hypothesis DG : d_differentiates loss dgrads.
Variable net : list R -> nat -> list R.
Variable score : list R -> nat -> nat -> nat -> R.
Hypothesis SM : smooth_policy nA N net score.
Variable grads : list R -> fbatch nat -> list R -> list R.
Hypothesis GR : pg_differentiates nA N net grads.
Variable sub : nat -> nat -> bool.
Variables tau gamma : R.
Variable n : nat.
Hypothesis Hn : (1 <= n)%nat.
Hypothesis HG : 0 <= gamma <= 1.
Notation after := (fun lrv lrp => ac_after Nv N vnet slope score pull lrv lrp tau gamma n).
Notation loop := (ac_loop nA vnet loss vgrads dgrads net grads sub tau n gamma).
Notation does := (ac_trains nA vnet loss vgrads dgrads net grads sub tau n gamma).
Lemma after_trains : forall p, par_sized Nv N p -> does p (fun lrv lrp => after lrv lrp p).
Proof.
  intros p HZ lrv lrp es cs y t NE LA RC HS HP T1 T2. destruct (@episode_ok Nv vnet slope SV loss pull PB vgrads VG dgrads DG nA N net score SM grads GR sub tau lrv lrp gamma n Hn HG es cs y p t RC LA HS HP HZ T1 T2) as (y' & t' & E & X1 & X2 & X3 & X4 & _). exists y', t'. auto.
Qed.
Lemma has_params_inj : forall y p q, has_params y p -> has_params y q -> p = q.
Proof.
  intros y [w u th] [w' u' th'] (A1 & A2 & A3) (B1 & B2 & B3). cbn in *. rewrite A1 in B1. rewrite A2 in B2. injection B1 as <-. injection B2 as <-. destruct (ac_targ y), u, u'; try contradiction; [|reflexivity]. rewrite A3 in B3. now injection B3 as <-.
Qed.
Lemma learner_exists : forall lrv lrp p, (forall c, sub c c = true) -> exists y, sgd_actor_critic sub lrv lrp y /\ has_params y p.
Proof.
  intros lrv lrp [w u th] HR. exists (mkAC (mkLearner KTD (mkFunc 0 (wrap w) (Node [] []) 0) (sgd lrv) (Node [] [])) (match u with Some u => Some (mkFunc 0 (wrap u) (Node [] []) 0) | None => None end) (mkLearner KPolicy (mkFunc 0 (wrap th) (Node [] []) 0) (sgd lrp) (Node [] []))).
  destruct u; repeat split; cbn; auto.
Qed.
Lemma trains_after : forall p f, (forall c, sub c c = true) -> par_sized Nv N p -> does p f -> forall lrv lrp es, es <> [] -> legal_actions nA es -> f lrv lrp es = after lrv lrp p es.
Proof.
  intros p f HR HZ TR lrv lrp es NE LA. destruct (records_exist NE) as [cs RC]. destruct (@learner_exists lrv lrp p HR) as (y & HS & HP).
  destruct (TR lrv lrp es cs y (mkN [] [] false) NE LA RC HS HP eq_refl eq_refl) as (y1 & t1 & E1 & _ & _ & _ & P1). destruct (@after_trains p HZ lrv lrp es cs y (mkN [] [] false) NE LA RC HS HP eq_refl eq_refl) as (y2 & t2 & E2 & _ & _ & _ & P2). rewrite E1 in E2. injection E2 as -> ->. eapply has_params_inj; eauto.
Qed.
(** Many episodes. *)
Lemma loop_app : forall cs ds y t, loop y t (cs ++ ds) = match loop y t cs with (y1, t1, Err e) => (y1, t1, Err e) | (y1, t1, Ok _) => loop y1 t1 ds end.
Proof.
  induction cs as [|c cs IH]; intros ds y t; [reflexivity|]. cbn [app ac_loop]. destruct (ac_step _ _ _ _ _ _ _ _ _ _ _ y t c) as [[y1 t1] [u|e]]; [apply IH|reflexivity].
Qed.
Lemma loop_episodes : forall lrv lrp (I : acparams -> Prop) (ok : list visit -> Prop), (forall p es, par_sized Nv N p -> ok es -> I p -> I (after lrv lrp p es)) ->
  forall ess css, Forall2 records ess css -> Forall (legal_actions nA) ess -> Forall ok ess -> forall y p t, sgd_actor_critic sub lrv lrp y -> has_params y p -> par_sized Nv N p -> I p -> n_s t = [] -> n_r t = [] ->
  exists y' t', loop y t (concat css) = (y', t', Ok tt) /\ n_s t' = [] /\ n_r t' = [] /\ sgd_actor_critic sub lrv lrp y' /\ exists p', has_params y' p' /\ par_sized Nv N p' /\ I p'.
Proof.
  intros lrv lrp I ok HI ess css F. induction F as [|es cs ess css RC F IH]; intros LA OK y p t HS HP HZ HIp T1 T2.
  - exists y, t. split; [reflexivity|]. repeat (split; auto). exists p. auto.
  - inversion LA; subst. inversion OK; subst. destruct (@episode_ok Nv vnet slope SV loss pull PB vgrads VG dgrads DG nA N net score SM grads GR sub tau lrv lrp gamma n Hn HG es cs y p t RC) as (y1 & t1 & E & X1 & X2 & X3 & X4 & X5); auto.
    cbn [concat]. rewrite loop_app, E. eapply (IH ltac:(auto) ltac:(auto) y1 _ t1); eauto.
Qed.
End Loop.

(** * Gradients of the critic *)
Lemma parts_row : forall vnet l u b w s r i s' g, fb_S b = [s] -> fb_W b = [g] -> tb_Rn (fb_t b) = [r] -> tb_In (fb_t b) = [i] -> tb_Snext (fb_t b) = [s'] ->
  v_parts vnet (zip_loss l) u b w = Ok ([r + i * vnet u s'], [vnet w s], Some (nth 0 (clip_w [g]) 0 * l (r + i * vnet u s') (vnet w s))).
Proof.
  intros vnet l u b w s r i s' g H1 H2 H3 H4 H5. unfold v_parts, simple_td, finish. rewrite H1, H2, H3, H4, H5. cbn [map bootstrap bind]. unfold td_loss. cbn [zipw]. rewrite Rminus_0_r. rewrite zip_loss_some by (auto; discriminate). cbn [bind]. do 3 f_equal.
  unfold weighted_mean. cbn [length seq map nth clip_w]. rewrite total_cons. change (total []) with 0. change (INR 1) with 1. lra.
Qed.
Lemma v_grads_exist : forall N vnet slope loss pull, smooth_value N vnet slope -> pulls_by loss pull -> exists vgrads, v_differentiates N vnet loss vgrads.
Proof.
  intros N vnet slope loss pull SV PB. destruct (pulls_form PB) as (l & El & Dl).
  exists (fun w u b => map (fun k => nth 0 (clip_w (fb_W b)) 0 * (- pull (nth 0 (tb_Rn (fb_t b)) 0 + nth 0 (tb_In (fb_t b)) 0 * vnet u (nth 0 (tb_Snext (fb_t b)) 0%nat) - vnet w (nth 0 (fb_S b) 0%nat)) * slope w (nth 0 (fb_S b) 0%nat) k)) (seq 0 N)).
  intros w u b s r i s' g Lw Lu H1 H2 H3 H4 H5. rewrite H1, H2, H3, H4, H5. split; [now rewrite map_length, seq_length|]. intros k Hk. rewrite Lw in Hk. rewrite (@nth_map_any _ _ _ (seq 0 N) k 0 0%nat) by (rewrite seq_length; lia). rewrite seq_nth by lia. cbn [Nat.add].
  set (c := nth 0 (clip_w [g]) 0). cbn [nth]. apply (@derivable_pt_lim_same (fun t => c * l (r + i * vnet u s') (vnet (firstn k w ++ t :: skipn (S k) w) s))).
  - intros t. unfold v_loss. rewrite El, (@parts_row vnet l u b _ s r i s' g) by auto. reflexivity.
  - apply (@derivable_pt_lim_scal (fun t => l (r + i * vnet u s') (vnet (firstn k w ++ t :: skipn (S k) w) s))). pose proof (@coordinate_deriv N _ _ w k (SV s) Lw Hk) as C.
    assert (E : - pull (r + i * vnet u s' - vnet w s) * slope w s k = - pull (r + i * vnet u s' - vnet (firstn k w ++ nth k w 0 :: skipn (S k) w) s) * slope w s k) by (now rewrite (@coordinate_same N w k Lw Hk)). rewrite E.
    apply (@derivable_pt_lim_comp (fun t => vnet (firstn k w ++ t :: skipn (S k) w) s) (l (r + i * vnet u s'))); [exact C|apply Dl].
Qed.
Lemma d_grads_exist : forall loss pull, pulls_by loss pull -> exists dgrads, d_differentiates loss dgrads.
Proof.
  intros loss pull PB. destruct (pulls_form PB) as (l & -> & Dl). exists (fun y x => map (fun k => (- pull (nth k y 0 - nth k x 0)) / INR (length x)) (seq 0 (length x))). intros g v.
  pose proof (@loss_gradient l (fun y h => - pull (y - h)) Dl [g] [v] eq_refl ltac:(discriminate)) as G. exact G.
Qed.

(** * Tables *)
Lemma value_table_is : forall nS w s, value_table nS w s = if Nat.ltb s nS then nth s w 0 else 0.
Proof. intros nS w s. unfold value_table. pose proof (@table_logit nS 1 w s 0 ltac:(lia)) as E. unfold logit_table in E. rewrite E. destruct (Nat.ltb s nS); auto. f_equal. lia. Qed.
Definition table_slope (nS : nat) (_ : list R) (s i : nat) : R := if Nat.ltb s nS && Nat.eqb i s then 1 else 0.
Lemma value_table_smooth : forall nS, smooth_value nS (value_table nS) (table_slope nS).
Proof.
  intros nS s. unfold table_slope. apply smooth_sum. intros w L. rewrite value_table_is. destruct (Nat.ltb_spec s nS) as [Hs|Hs]; cbn [andb].
  - now rewrite sum_pick.
  - rewrite (@total_ext _ _ (fun _ => 0)) by (intros; lra). rewrite total_const. lra.
Qed.
Lemma target_bounded : forall gamma v M, 0 <= gamma <= 1 -> 0 <= M -> (forall s, - M <= v s <= M) -> forall n es, (forall s a r, In (s, a, r) es -> - ((1 - gamma) * M) <= r <= (1 - gamma) * M) -> - M <= nstep_target gamma v n es <= M.
Proof.
  intros gamma v M HG HM HV. induction n as [|n IH]; intros [|[[s a] r] es] HR; cbn [nstep_target]; try lra; auto.
  assert (A := HR s a r ltac:(now left)). assert (B := IH es (fun s a r I => HR s a r (or_intror I))). nra.
Qed.
Lemma moved_bounded : forall nS N score loss pull lrv lrp tau gamma n M p es, pulls_by loss pull -> 0 <= gamma <= 1 -> 0 <= lrv <= 1 -> 0 <= tau <= 1 -> 0 <= M -> par_sized nS N p ->
  (forall s a r, In (s, a, r) es -> - ((1 - gamma) * M) <= r <= (1 - gamma) * M) -> par_bounded M p ->
  par_bounded M (ac_moved nS N (value_table nS) (table_slope nS) score pull lrv lrp tau gamma n p es).
Proof.
  intros nS N score loss pull lrv lrp tau gamma n M p [|[[s a] r] es] PB HG HL HT HM (L1 & L2 & L3) HR [B1 B2]; [split; auto|]. unfold ac_moved.
  set (u := match p_u p with Some u => u | None => p_w p end). assert (Bu : forall x, In x u -> - M <= x <= M) by (unfold u; destruct (p_u p); auto).
  assert (BT : forall l, (forall x : R, In x l -> - M <= x <= M) -> forall k, - M <= nth k l 0 <= M). { intros l H k. destruct (nth_in_or_default k l 0) as [I| ->]; [auto|lra]. }
  assert (BV : forall l, (forall x : R, In x l -> - M <= x <= M) -> forall k, - M <= value_table nS l k <= M). { intros l H k. rewrite value_table_is. destruct (Nat.ltb k nS); [now apply BT|lra]. }
  set (g := nstep_target gamma (value_table nS u) n ((s, a, r) :: es)). assert (Bg : - M <= g <= M) by (apply target_bounded; auto).
  destruct (pull_between PB (g - value_table nS (p_w p) s)) as (c & Hc & ->).
  set (w' := map _ (seq 0 nS)). assert (Bw : forall x, In x w' -> - M <= x <= M).
  { intros x Hx. unfold w' in Hx. apply in_map_iff in Hx. destruct Hx as (k & <- & Hk). apply in_seq in Hk. unfold table_slope. destruct (Nat.ltb_spec s nS) as [Hs|Hs]; cbn [andb]; [destruct (Nat.eqb_spec k s) as [->|NE]|].
    - rewrite value_table_is, (proj2 (Nat.ltb_lt _ _) Hs). pose proof (BT _ B1 s) as B. set (x := nth s (p_w p) 0) in *. replace (x + lrv * (c * (g - x) * 1)) with ((1 - lrv * c) * x + (lrv * c) * g) by lra. assert (0 <= lrv * c <= 1) by nra. nra.
    - rewrite !Rmult_0_r, Rplus_0_r. now apply BT.
    - rewrite !Rmult_0_r, Rplus_0_r. now apply BT. }
  split; cbn [p_w p_u]; [exact Bw|]. destruct (p_u p) as [u0|]; [|exact I]. intros x Hx. apply in_map_iff in Hx. destruct Hx as (k & <- & Hk). pose proof (BT _ B2 k). pose proof (BT _ Bw k). nra.
Qed.
Lemma after_bounded : forall nS N score loss pull lrv lrp tau gamma n M es p, pulls_by loss pull -> 0 <= gamma <= 1 -> 0 <= lrv <= 1 -> 0 <= tau <= 1 -> 0 <= M -> par_sized nS N p ->
  (forall s a r, In (s, a, r) es -> - ((1 - gamma) * M) <= r <= (1 - gamma) * M) -> par_bounded M p ->
  par_bounded M (ac_after nS N (value_table nS) (table_slope nS) score pull lrv lrp tau gamma n p es).
Proof.
  intros nS N score loss pull lrv lrp tau gamma n M. induction es as [|e es IH]; intros p PB HG HL HT HM HZ HR HB; [exact HB|]. cbn [ac_after]. apply IH; auto.
  - now apply moved_sized.
  - intros s a r I. apply (HR s a r). now right.
  - eapply moved_bounded; eauto.
Qed.
