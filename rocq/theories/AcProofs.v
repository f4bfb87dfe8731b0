(** The actor-critic loop: one update, one episode. *)
From Coq Require Import List Lia Bool Arith Reals Lra.
From Verif Require Import PyCommon CommonProofs UtilsModel UtilsSpec UtilsProofs2 UtilsProofs3 WrappersProofs DistModel DistSpec DistProofs LossModel LossSpec LossProofs QModel TDModel TDSpec TDProofs TDProofs3 CoreModel CoreSpec CoreProofs CoreProofs2 TracerModel TracerSpec TracerProofs WorkerModel PolicyModel PolicySpec PolicyProofs PolicyProofs4 LearnModel LearnProofs2 LearnProofs3 PgModel PgSpec PgProofs PgProofs2 AcModel AcSpec.
Import ListNotations.
Set Implicit Arguments.
Local Open Scope R_scope.

Lemma clip_minmax : forall x d, 0 < d -> clip x (- d) d = Rmax (- d) (Rmin x d).
Proof. intros x d H. unfold clip, Rmax, Rmin. repeat destruct (Rle_dec _ _); lra. Qed.
Lemma pulls_form : forall loss pull, pulls_by loss pull -> exists l, loss = zip_loss l /\ forall y h, derivable_pt_lim (l y) h (- pull (y - h)).
Proof.
  intros loss pull [|delta Hd].
  - exists mse1. split; [reflexivity|]. intros y h. replace (- (y - h)) with (h - y) by lra. apply mse_deriv.
  - exists (huber1 delta). split; [reflexivity|]. intros y h. rewrite <- clip_minmax by auto. rewrite neg_clip by auto. replace (- (y - h)) with (h - y) by lra. now apply huber_deriv.
Qed.
Lemma pull_between : forall loss pull, pulls_by loss pull -> forall x, exists c, 0 <= c <= 1 /\ pull x = c * x.
Proof.
  assert (Q : forall a b, 0 < a -> a <= b -> 0 <= a / b <= 1). { intros a b Ha Hb. split; [left; apply Rdiv_lt_0_compat; lra|]. apply Rmult_le_reg_r with b; [lra|]. unfold Rdiv. rewrite Rmult_assoc, Rinv_l by lra. lra. }
  intros loss pull [|d Hd] x; [exists 1; lra|]. destruct (Rle_dec x (- d)) as [A|A].
  - exists (d / - x). rewrite Rmin_left, Rmax_left by lra. split; [apply Q; lra|field; lra].
  - destruct (Rle_dec d x) as [B|B].
    + exists (d / x). rewrite Rmin_right, Rmax_right by lra. split; [apply Q; lra|field; lra].
    + exists 1. rewrite Rmin_left, Rmax_right by lra. lra.
Qed.

Section Critic.
Variable N : nat.
Variable vnet : list R -> nat -> R.
Variable slope : list R -> nat -> nat -> R.
Hypothesis SV : smooth_value N vnet slope.
Variable loss : list R -> list R -> option (list R) -> outcome (option R).
Variable pull : R -> R.
Hypothesis PB : pulls_by loss pull.
Variable vgrads : list R -> list R -> fbatch nat -> list R.
Hypothesis VG : v_differentiates N vnet loss vgrads.
Variable dgrads : list R -> list R -> list R.
Hypothesis DG : d_differentiates loss dgrads.

Definition one_row (b : fbatch nat) (s : nat) (r i : R) (s' : nat) : Prop := fb_S b = [s] /\ fb_W b = [1] /\ tb_Rn (fb_t b) = [r] /\ tb_In (fb_t b) = [i] /\ tb_Snext (fb_t b) = [s'].
Lemma parts_one : forall l, loss = zip_loss l -> forall u b w s r i s', one_row b s r i s' -> v_parts vnet loss u b w = Ok ([r + i * vnet u s'], [vnet w s], Some (l (r + i * vnet u s') (vnet w s))).
Proof.
  intros l El u b w s r i s' (H1 & H2 & H3 & H4 & H5). unfold v_parts, simple_td, finish. rewrite H1, H2, H3, H4, H5. cbn [map bootstrap bind]. unfold td_loss. cbn [zipw]. rewrite Rminus_0_r. rewrite El, zip_loss_some by (auto; discriminate). cbn [bind]. do 3 f_equal.
  unfold weighted_mean. cbn [length seq map nth clip_w]. rewrite total_cons. change (total []) with 0. rewrite clip_in by lra. change (INR 1) with 1. lra.
Qed.
Lemma vgrads_one : forall w u b s r i s' k, length w = N -> length u = N -> one_row b s r i s' -> (k < N)%nat -> length (vgrads w u b) = N /\ nth k (vgrads w u b) 0 = - (pull (r + i * vnet u s' - vnet w s) * slope w s k).
Proof.
  intros w u b s r i s' k Lw Lu OR Hk. pose proof OR as (H1 & H2 & H3 & H4 & H5). destruct (@VG w u b s r i s' 1 Lw Lu H1 H2 H3 H4 H5) as [LG D]. split; [congruence|]. specialize (D k ltac:(lia)).
  destruct (pulls_form PB) as (l & El & Dl). eapply uniqueness_limite; [exact D|].
  apply (@derivable_pt_lim_same (fun t => l (r + i * vnet u s') (vnet (firstn k w ++ t :: skipn (S k) w) s))).
  - intros t. unfold v_loss. rewrite (@parts_one l El u b _ s r i s' OR). reflexivity.
  - pose proof (@coordinate_deriv N _ _ w k (SV s) Lw Hk) as C.
    assert (E : - (pull (r + i * vnet u s' - vnet w s) * slope w s k) = - pull (r + i * vnet u s' - vnet (firstn k w ++ nth k w 0 :: skipn (S k) w) s) * slope w s k) by (rewrite (@coordinate_same N w k Lw Hk); lra). rewrite E.
    apply (@derivable_pt_lim_comp (fun t => vnet (firstn k w ++ t :: skipn (S k) w) s) (l (r + i * vnet u s'))); [exact C|apply Dl].
Qed.
Lemma td_one : forall g v, td_error (dgrads [g] [v]) [v] = [pull (g - v)].
Proof.
  intros g v. destruct (pulls_form PB) as (l & El & Dl). rewrite El in DG. rewrite (@td_error_is l (fun y h => - pull (y - h)) Dl [g] [v] _ eq_refl ltac:(discriminate) (DG g v)). cbn [length seq map nth]. f_equal. lra.
Qed.
Lemma critic_step : forall lr l w u b s r i s', l_opt l = sgd lr -> f_params (l_func l) = wrap w -> length w = N -> length u = N -> one_row b s r i s' ->
  exists l', update (v_grads_and_metrics vnet loss vgrads dgrads (wrap u) b) l = (l', Ok [pull (r + i * vnet u s' - vnet w s)]) /\ l_opt l' = sgd lr /\
    f_cls (l_func l') = f_cls (l_func l) /\ f_state (l_func l') = f_state (l_func l) /\
    f_params (l_func l') = wrap (map (fun k => nth k w 0 + lr * (pull (r + i * vnet u s' - vnet w s) * slope w s k)) (seq 0 N)).
Proof.
  intros lr l w u b s r i s' HO HP Lw Lu OR. destruct (pulls_form PB) as (lf & El & _).
  assert (LG : length (vgrads w u b) = N). { pose proof OR as (H1 & H2 & H3 & H4 & H5). destruct (@VG w u b s r i s' 1 Lw Lu H1 H2 H3 H4 H5) as [LG _]. congruence. }
  destruct (@update_ok (list R) (v_grads_and_metrics vnet loss vgrads dgrads (wrap u) b) l (wrap (map (@Some R) (vgrads w u b))) (f_state (l_func l)) [pull (r + i * vnet u s' - vnet w s)]
    (wrap (map (fun o => match o with Some v => - lr * v | None => 0 end) (map (@Some R) (vgrads w u b)))) (l_ostate l)) as (p & l' & E & EP & F); auto.
  - unfold v_grads_and_metrics. rewrite HP, !unwrap_wrap, (@parts_one lf El u b w s r i s' OR). cbn [bind map]. cbn [zipw]. rewrite Rminus_0_r, td_one. reflexivity.
  - apply wrap_no_nan.
  - rewrite HO. reflexivity.
  - rewrite HP. unfold wrap. cbn. now rewrite !map_length, LG, Lw.
  - exists l'. split; [exact E|]. red in F. subst l'. cbn. split; auto. split; auto. split; auto. rewrite HP in EP. apply wrap_entrywise in EP; [|rewrite !map_length; lia]. rewrite EP. f_equal. rewrite Lw. apply map_ext_in. intros k Hk. apply in_seq in Hk. rewrite map_map. rewrite (@nth_map_any _ _ _ (vgrads w u b) k 0 0) by lia. destruct (@vgrads_one w u b s r i s' k) as [_ ->]; auto; [lia|]. lra.
Qed.

Variables nA Np : nat.
Variable net : list R -> nat -> list R.
Variable score : list R -> nat -> nat -> nat -> R.
Hypothesis SM : smooth_policy nA Np net score.
Variable grads : list R -> fbatch nat -> list R -> list R.
Hypothesis GR : pg_differentiates nA Np net grads.
Variable sub : nat -> nat -> bool.
Variables tau lrv lrp gamma : R.
Variable n : nat.
Hypothesis Hn : (1 <= n)%nat.
Hypothesis HG : 0 <= gamma <= 1.
Notation moved := (ac_moved N Np vnet slope score pull lrv lrp tau gamma n).
Notation after := (ac_after N Np vnet slope score pull lrv lrp tau gamma n).
Notation upd := (ac_update nA vnet loss vgrads dgrads net grads sub tau).
Notation drain := (ac_drain nA vnet loss vgrads dgrads net grads sub tau n gamma).
Notation loop := (ac_loop nA vnet loss vgrads dgrads net grads sub tau n gamma).
Notation sized := (par_sized N Np).
Lemma moved_sized : forall p es, sized p -> sized (moved p es).
Proof. intros p [|[[s a] r] es] H; [exact H|]. unfold par_sized, ac_moved. cbn [p_w p_th p_u]. rewrite !map_length, !seq_length. repeat split; auto. destruct (p_u p); [now rewrite map_length, seq_length|auto]. Qed.
Lemma after_sized : forall es p, sized p -> sized (after p es).
Proof. induction es as [|e es IH]; intros p H; [exact H|]. cbn [ac_after]. apply IH. now apply moved_sized. Qed.
(** The single transition for the rest of an episode. *)
Definition for_rest (es : list visit) (x : single nat nat) : Prop :=
  match es with
  | [] => False
  | (s, a, _) :: _ => x_s x = s /\ x_a x = a /\ x_w x = 1 /\ forall v, x_rn x + x_in x * v (x_s_next x) = nstep_target gamma v n es
  end.
Lemma upd_ok : forall y p es x, sgd_actor_critic sub lrv lrp y -> has_params y p -> sized p -> legal_actions nA es -> for_rest es x ->
  exists y', upd (batch_of nA [x]) y = (y', Ok tt) /\ sgd_actor_critic sub lrv lrp y' /\ has_params y' (moved p es).
Proof.
  intros y p [|[[s a] r] es] x (O1 & O2 & O3) (P1 & P2 & P3) (L1 & L2 & L3) LA FR; [contradiction|]. destruct FR as (X1 & X2 & X3 & X4). assert (Ha := LA s a r ltac:(now left)).
  set (u := match p_u p with Some u => u | None => p_w p end). assert (Lu : length u = N) by (unfold u; destruct (p_u p); auto). assert (TU : v_targ_params y = wrap u). { unfold v_targ_params, u. destruct (ac_targ y), (p_u p); try contradiction; auto. }
  assert (OR : one_row (batch_of nA [x]) s (x_rn x) (x_in x) (x_s_next x)). { unfold one_row, batch_of. cbn [map fb_S fb_W fb_t tb_Rn tb_In tb_Snext]. rewrite X1, X3. auto. }
  destruct (@critic_step lrv (ac_critic y) (p_w p) u (batch_of nA [x]) s (x_rn x) (x_in x) (x_s_next x) O1 P1 L1 Lu OR) as (c & E1 & C1 & C2 & C3 & C4). rewrite (X4 (vnet u)) in E1, C4.
  unfold ac_update. rewrite TU, E1. cbv beta iota.
  match goal with |- context [pg_update _ _ _ _ [?g] (ac_actor y)] => destruct (@pg_step nA Np net score SM grads GR lrp (ac_actor y) (p_th p) (batch_of nA [x]) s a g O2 P2 L2) as (l2 & E2 & A1 & A2) end; auto; try (unfold batch_of; cbn [map fb_S fb_A fb_W]; now rewrite ?X1, ?X2, ?X3).
  rewrite E2. unfold ac_moved. fold u. destruct (ac_targ y) as [t|] eqn:ET.
  - destruct (p_u p) as [u0|] eqn:EU; [|contradiction]. subst u. destruct O3 as [O3 O4].
    destruct (@soft_update_ok sub t (l_func c) tau) as (q & st & E & EP & ES).
    + now rewrite C2.
    + rewrite P3, C4. unfold wrap. cbn. now rewrite map_length, seq_length, L3.
    + now rewrite C3.
    + rewrite E. eexists. split; [reflexivity|]. cbn. split; [repeat split; cbn; auto; [now rewrite C2|rewrite C3; destruct ES as [-> _]; auto]|]. split; [exact C4|]. split; [exact A2|]. cbn. rewrite P3, C4 in EP. apply wrap_entrywise in EP; [|now rewrite map_length, seq_length]. rewrite EP, L3. reflexivity.
  - destruct (p_u p) as [u0|] eqn:EU; [contradiction|]. eexists. split; [reflexivity|]. cbn. repeat split; cbn; auto.
Qed.

(** * The tracer *)
Lemma disc_target : forall v es, forall m, nstep_target gamma v m es = disc_sum gamma (map snd es) 0 m + gamma ^ m * (match nth_error es m with Some e => v (fst (fst e)) | None => 0 end).
Proof.
  intros v es. assert (HS : forall r rs m, disc_sum gamma (r :: rs) 0 (S m) = r + gamma * disc_sum gamma rs 0 m). { intros r rs m. induction m as [|m IH]; [cbn; lra|]. cbn [disc_sum] in *. rewrite IH. cbn [plus nth pow]. lra. }
  assert (HN : forall m, disc_sum gamma [] 0 m = 0). { induction m as [|m IH]; [reflexivity|]. cbn [disc_sum]. rewrite IH. destruct m; cbn; lra. }
  induction es as [|[[s a] r] es IH]; intros [|m]; cbn [nstep_target nth_error map snd fst].
  - cbn. lra.
  - rewrite HN. lra.
  - cbn. lra.
  - rewrite HS, IH. cbn [pow]. lra.
Qed.
Definition ep_of (cs : list (call nat nat)) : episode nat nat := map (fun c => (mkStep (c_s c) (c_a c) (c_logp c) 1 true, c_r c)) cs.
Definition good_call (c : call nat nat) : Prop := (c_a c < nA)%nat /\ c_logp c <= 0.
Lemma ep_valid : forall cs, Forall good_call cs -> valid_episode (ep_of cs).
Proof. intros cs H x r HI. apply in_map_iff in HI. destruct HI as (c & E & HC). rewrite Forall_forall in H. destruct (H c HC) as [_ L]. injection E as <- <-. repeat split; cbn; auto; lra. Qed.
Notation vis := (map visit_of).
Lemma spec_rest : forall cs k x, (k < length cs)%nat -> nstep_spec n gamma false (ep_of cs) true k x -> for_rest (vis (skipn k cs)) x.
Proof.
  intros cs k x Hk (st & r & E & X1 & X2 & X3 & X4 & X5 & X6 & X7 & _). unfold ep_of in E. destruct (nth_error cs k) as [c|] eqn:EC; [|apply nth_error_None in EC; lia]. rewrite (map_nth_error _ _ _ EC) in E. injection E as <- <-. cbn [st_s st_a st_logp st_w] in *.
  rewrite (skipn_cons _ _ EC). cbn [map for_rest visit_of]. split; auto. split; auto. split; auto. intros v. match goal with |- _ = nstep_target _ _ _ ?l => change l with (vis (c :: skipn (S k) cs)) end. rewrite <- (skipn_cons _ _ EC).
  rewrite disc_target, X5. rewrite disc_sum_skipn. unfold rewards, ep_of. rewrite map_map. cbn [snd]. rewrite skipn_map, map_map. f_equal.
  rewrite <- skipn_map, nth_error_skipn. unfold ep_of in X6, X7. rewrite map_length in X6, X7. destruct (Nat.lt_ge_cases (k + n) (length cs)) as [Q|Q].
  - destruct (X6 Q) as (-> & x' & r' & E' & -> & _). destruct (nth_error cs (k + n)) as [c'|] eqn:EC'; [|apply nth_error_None in EC'; lia]. rewrite (map_nth_error _ _ _ EC') in E'. injection E' as <- _. rewrite (map_nth_error _ _ _ EC'). reflexivity.
  - destruct (X7 Q) as (-> & _). rewrite (proj2 (nth_error_None _ _)) by (rewrite map_length; lia). lra.
Qed.
Notation view := (@nview nat nat).
(** Draining the tracer in the middle of an episode: all transitions for which enough steps are known. *)
Lemma drain_ok : forall fuel cs more fin k y p, Forall good_call (cs ++ more) -> (k <= length cs)%nat -> (length cs - k <= fuel)%nat -> (fin = true -> more = []) -> (fin = false -> more <> []) ->
  sgd_actor_critic sub lrv lrp y -> has_params y p -> sized p ->
  exists y' k', drain fuel y (view (ep_of cs) fin k) = (y', view (ep_of cs) fin k', Ok tt) /\ (k <= k' <= length cs)%nat /\ (fin = true -> k' = length cs) /\ sgd_actor_critic sub lrv lrp y' /\
    exists p', has_params y' p' /\ sized p' /\ after p (vis (skipn k (cs ++ more))) = after p' (vis (skipn k' (cs ++ more))).
Proof.
  assert (LE : forall cs, length (ep_of cs) = length cs) by (intros; apply map_length).
  induction fuel as [|fuel IH]; intros cs more fin k y p HC Hk Hf F1 F2 HS HP HZ.
  - exists y, k. split; [reflexivity|]. split; [lia|]. split; [intros; lia|]. split; auto. exists p. auto.
  - cbn [ac_drain]. destruct (nstep_bool n (view (ep_of cs) fin k)) eqn:B.
    + destruct (@nview_pop nat nat n gamma false Hn HG (ep_of cs) fin k (ep_of more) true) as (x & E & SP); auto.
      { apply ep_valid. apply Forall_app in HC. tauto. } { rewrite LE. lia. } { intros Ef. rewrite (F1 Ef). auto. } { intros Ef _ Em. apply (F2 Ef). destruct more; [reflexivity|discriminate]. }
      rewrite E. assert (Hlt : (k < length cs)%nat). { rewrite (@nview_bool nat nat n Hn (ep_of cs) _ k ltac:(rewrite LE; lia)) in B. apply andb_true_iff in B. destruct B as [B _]. apply Nat.ltb_lt in B. now rewrite LE in B. }
      unfold ep_of in SP. rewrite <- map_app in SP. change (map _ (cs ++ more)) with (ep_of (cs ++ more)) in SP. assert (FR := @spec_rest (cs ++ more) k x ltac:(rewrite app_length; lia) SP).
      destruct (@upd_ok y p (vis (skipn k (cs ++ more))) x HS HP HZ) as (y1 & E1 & S1 & P1); auto.
      { intros s a r HI. apply in_map_iff in HI. destruct HI as (c & Ec & HI). injection Ec as <- <- <-. rewrite Forall_forall in HC. apply HC. rewrite <- (firstn_skipn k (cs ++ more)). apply in_or_app. now right. }
      rewrite E1. destruct (IH cs more fin (S k) y1 (moved p (vis (skipn k (cs ++ more)))) HC ltac:(lia) ltac:(lia) F1 F2 S1 P1 (moved_sized _ HZ)) as (y' & k' & E2 & K1 & K2 & S2 & p' & Q1 & Q2 & Q3).
      exists y', k'. split; [exact E2|]. split; [lia|]. split; auto. split; auto. exists p'. split; auto. split; auto. rewrite <- Q3. destruct (nth_error (cs ++ more) k) as [c|] eqn:EC; [|apply nth_error_None in EC; rewrite app_length in EC; lia]. rewrite (skipn_cons _ _ EC). reflexivity.
    + exists y, k. split; [reflexivity|]. split; [lia|]. split; [|split; auto; exists p; auto]. intros Ef. subst fin. rewrite (@nview_bool nat nat n Hn (ep_of cs) _ k ltac:(rewrite LE; lia)) in B. cbn [orb] in B. rewrite andb_true_r in B. apply Nat.ltb_ge in B. rewrite LE in B. lia.
Qed.
Lemma add_view : forall cs c fin k, (k <= length cs)%nat -> (fin = true -> k = length cs) ->
  nstep_add (view (ep_of cs) fin k) (mkStep (c_s c) (c_a c) (c_logp c) 1 true) (c_r c) (c_done c) = (if fin then view (ep_of [c]) (c_done c) 0 else view (ep_of (cs ++ [c])) (c_done c) k, None).
Proof.
  intros cs c fin k Hk HF. unfold nstep_add. rewrite nview_len. unfold nview at 1. cbn [n_done]. destruct fin.
  - rewrite (HF eq_refl). replace (length (ep_of cs) - length cs)%nat with 0%nat by (unfold ep_of; rewrite map_length; lia). cbn [Nat.eqb negb andb]. unfold nview, ep_of. rewrite !skipn_all2 by (rewrite map_length; lia). reflexivity.
  - cbn [andb]. unfold nview, ep_of. cbn [n_s n_r]. rewrite map_app. rewrite skipn_app. rewrite map_length. replace (k - length cs)%nat with 0%nat by lia. cbn [skipn map]. rewrite !map_app. reflexivity.
Qed.
Lemma loop_rest : forall es cs, records es cs -> forall pre k y p, Forall good_call (pre ++ cs) -> (k <= length pre)%nat -> sgd_actor_critic sub lrv lrp y -> has_params y p -> sized p ->
  exists y' t', loop y (view (ep_of pre) false k) cs = (y', t', Ok tt) /\ n_s t' = [] /\ n_r t' = [] /\ sgd_actor_critic sub lrv lrp y' /\ has_params y' (after p (vis (skipn k (pre ++ cs)))).
Proof.
  induction es as [|[[s a] r] es IH]; intros cs RC pre k y p HC Hk HS HP HZ; [destruct cs; contradiction|].
  destruct cs as [|c cs]; [now apply records_nil in RC|]. cbn [ac_loop]. unfold ac_step. rewrite add_view by (auto; discriminate). destruct es as [|e es].
  - destruct cs as [|c2 cs]; [|cbn in RC; decompose [and] RC; contradiction]. cbn in RC. destruct RC as (R1 & R2 & R3 & R4 & R5). rewrite R4.
    destruct (@drain_ok (nstep_len (view (ep_of (pre ++ [c])) true k)) (pre ++ [c]) [] true k y p) as (y' & k' & E & K1 & K2 & S2 & p' & Q1 & Q2 & Q3); auto.
    { now rewrite app_nil_r. } { rewrite app_length. cbn. lia. } { rewrite nview_len. unfold ep_of. rewrite map_length. lia. } { discriminate. }
    rewrite E. rewrite (K2 eq_refl). eexists. eexists. split; [reflexivity|]. unfold nview. cbn [n_s n_r]. unfold ep_of. rewrite !skipn_all2 by (rewrite map_length; lia). split; auto. split; auto. split; auto. rewrite app_nil_r, (K2 eq_refl) in Q3. rewrite (skipn_all (pre ++ [c])) in Q3. cbn [map ac_after] in Q3. rewrite Q3. exact Q1.
  - apply records_cons in RC. destruct RC as (R1 & R2 & R3 & R4 & R5 & R6). destruct cs as [|c2 cs]; [now apply records_nil in R6|]. rewrite R4.
    destruct (@drain_ok (nstep_len (view (ep_of (pre ++ [c])) false k)) (pre ++ [c]) (c2 :: cs) false k y p) as (y' & k' & E & K1 & K2 & S2 & p' & Q1 & Q2 & Q3); auto.
    { rewrite <- app_assoc. exact HC. } { rewrite app_length. cbn. lia. } { rewrite nview_len. unfold ep_of. rewrite map_length. lia. } { discriminate. } { discriminate. }
    rewrite E. destruct (IH (c2 :: cs) R6 (pre ++ [c]) k' y' p') as (y2 & t2 & E2 & T1 & T2 & S3 & P3); auto; [rewrite <- app_assoc; exact HC|lia|]. exists y2, t2. split; [exact E2|]. split; auto. split; auto. split; auto. rewrite <- app_assoc in Q3, P3. cbn [app] in Q3, P3. rewrite Q3. exact P3.
Qed.
Lemma vis_records : forall es cs, records es cs -> vis cs = es.
Proof.
  induction es as [|[[s a] r] es IH]; intros cs RC; [destruct cs; contradiction|]. destruct cs as [|c cs]; [now apply records_nil in RC|]. destruct es as [|e es].
  - destruct cs as [|c2 cs]; [|cbn in RC; decompose [and] RC; contradiction]. cbn in RC. destruct RC as (<- & <- & <- & _). reflexivity.
  - apply records_cons in RC. destruct RC as (<- & <- & <- & R4 & R5 & R6). cbn [map]. f_equal. now apply IH.
Qed.
Lemma episode_ok : forall es cs y p t, records es cs -> legal_actions nA es -> sgd_actor_critic sub lrv lrp y -> has_params y p -> sized p -> n_s t = [] -> n_r t = [] ->
  exists y' t', loop y t cs = (y', t', Ok tt) /\ n_s t' = [] /\ n_r t' = [] /\ sgd_actor_critic sub lrv lrp y' /\ has_params y' (after p es) /\ sized (after p es).
Proof.
  intros es cs y p t RC LA HS HP HZ T1 T2. assert (GC := @records_calls nA es cs RC LA). assert (HC : Forall good_call ([] ++ cs)) by exact GC.
  destruct (@loop_rest es cs RC [] 0%nat y p HC ltac:(cbn; lia) HS HP HZ) as (y' & t' & E & X1 & X2 & X3 & X4). exists y', t'. cbn [app skipn] in X4. rewrite (@vis_records es cs RC) in X4. split; [|repeat (split; auto); now apply after_sized].
  rewrite <- E. destruct cs as [|c cs]; [now apply records_nil in RC|]. cbn [ac_loop]. unfold ac_step, nstep_add, nstep_len. cbn [nview n_s n_r n_done ep_of skipn map length Nat.eqb negb andb]. rewrite T1, T2. cbn [length Nat.eqb negb app]. rewrite andb_false_r. reflexivity.
Qed.
End Critic.
