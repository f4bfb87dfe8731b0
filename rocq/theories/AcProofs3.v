(** The actor-critic loop: advantages, directions to first order in the learning rates. *)
From Coq Require Import List Lia Bool Arith Reals Lra.
From Verif Require Import PyCommon CommonProofs UtilsModel UtilsSpec UtilsProofs2 UtilsProofs3 WrappersProofs DistModel DistSpec DistProofs LossModel LossSpec LossProofs QModel TDModel TDSpec TDProofs TDProofs3 CoreModel CoreSpec CoreProofs CoreProofs2 TracerModel TracerSpec TracerProofs WorkerModel PolicyModel PolicySpec PolicyProofs PolicyProofs4 LearnModel LearnProofs2 LearnProofs3 PgModel PgSpec PgProofs PgProofs2 PgProofs3 PgProofs4 AcModel AcSpec AcProofs AcProofs2.
Import ListNotations.
Set Implicit Arguments.
Local Open Scope R_scope.

Lemma target_nil : forall gamma v n, nstep_target gamma v n [] = 0. Proof. intros gamma v [|n]; reflexivity. Qed.

Section Means.
Variables nA N : nat.
Variable net : list R -> nat -> list R.
Variable score : list R -> nat -> nat -> nat -> R.
Hypothesis SM : smooth_policy nA N net score.
Variable gamma : R.
Variable th : list R.
Hypothesis L : length th = N.
Variable P : list R.
Variable dyn : nat -> nat -> nat -> nat * R * bool.
Hypothesis TP : total P = 1.
Notation mean_from := (mean_from nA net P dyn th).
Notation mean_after := (mean_after nA net P dyn th).
Notation prob := (prob nA net th).
Lemma noise_const : forall c, total (map (fun w => nth w P 0 * c) (seq 0 (length P))) = c.
Proof. intros c. rewrite (@total_ext _ _ (fun w => c * nth w P 0)) by (intros; lra). rewrite total_scal, <- (@list_seq P (length P) eq_refl), TP. lra. Qed.
Lemma prob_const : forall s c, expectation nA (prob s) (fun _ => c) = c.
Proof. intros s c. unfold expectation. rewrite (@total_ext _ _ (fun a => c * prob s a)) by (intros; lra). rewrite total_scal. rewrite (@prob_total nA N net score SM th s L). lra. Qed.
Lemma mean_const : forall T s c, mean_from T s (fun _ => c) = c.
Proof. intros T s c. rewrite (@mean_ext nA net P dyn th T s _ (fun _ => c * 1)) by (intros; lra). rewrite (mean_scal nA net P dyn th c T s (fun _ => 1)). rewrite (@mean_one nA N net P dyn score SM th T s L TP). lra. Qed.
Lemma mean_affine : forall T s r c f, mean_from T s (fun es => r + c * f es) = r + c * mean_from T s f.
Proof. intros. rewrite mean_plus, mean_const, mean_scal. reflexivity. Qed.

Lemma mean_from_after : forall T s f, mean_from (S T) s f = expectation nA (prob s) (fun a => mean_after (S T) s a f).
Proof. intros T s f. rewrite mean_S. apply expectation_ext_in. intros a Ha. unfold AcSpec.mean_after. apply total_ext. intros w _. f_equal. destruct (dyn w s a) as [[s' r] e]. replace (S T - 1)%nat with T by lia. reflexivity. Qed.
Lemma after_affine : forall T s a c d f, mean_after T s a (fun es => c * f es + d) = c * mean_after T s a f + d.
Proof.
  intros T s a c d f. unfold AcSpec.mean_after. rewrite <- total_scal. match goal with |- _ = ?x + d => transitivity (x + total (map (fun w => nth w P 0 * d) (seq 0 (length P)))); [|now rewrite noise_const] end. rewrite <- total_plus. apply total_ext. intros w _. destruct (dyn w s a) as [[s' r] e]. destruct e; [lra|]. rewrite mean_plus, mean_scal, mean_const. lra.
Qed.

Variable v : nat -> R.
Hypothesis EV : evaluates nA net P dyn gamma th v.
Notation aval := (action_value P dyn gamma v).
Definition enough (T s m : nat) : Prop := (1 <= T)%nat /\ ((m < T)%nat \/ ends nA P dyn T s).
Lemma enough_next : forall T s m w a s' r, enough (S T) s (S m) -> nth w P 0 <> 0 -> (a < nA)%nat -> dyn w s a = (s', r, false) -> enough T s' m.
Proof.
  intros T s m w a s' r [_ [H|H]] HW Ha E; [split; [lia|left; lia]|]. cbn [ends] in H. destruct (H w a s' r false HW Ha E) as [X|X]; [discriminate|]. split; [destruct T; [contradiction|lia]|now right].
Qed.
Lemma target_after : forall m, (forall T s, enough T s m -> mean_from T s (nstep_target gamma v m) = v s) -> forall T s a, enough T s (S m) -> (a < nA)%nat -> mean_after T s a (nstep_target gamma v (S m)) = aval s a.
Proof.
  intros m IH T s a HE Ha. unfold AcSpec.mean_after, action_value. apply total_ext. intros w _. destruct (Req_dec (nth w P 0) 0) as [->|NZ]; [lra|]. f_equal. destruct (dyn w s a) as [[s' r] e] eqn:E. destruct e; cbn [nstep_target].
  - rewrite target_nil. lra.
  - destruct T as [|T]; [destruct HE; lia|]. replace (S T - 1)%nat with T by lia. rewrite mean_affine. rewrite IH; [reflexivity|]. eapply enough_next; eauto.
Qed.
Lemma target_mean : forall m T s, enough T s m -> mean_from T s (nstep_target gamma v m) = v s.
Proof.
  induction m as [|m IH]; intros T s HE; (destruct T as [|T]; [destruct HE; lia|]).
  - rewrite mean_S. transitivity (expectation nA (prob s) (fun _ => v s)); [|apply prob_const]. apply expectation_ext_in. intros a Ha. transitivity (total (map (fun w => nth w P 0 * v s) (seq 0 (length P)))); [|apply noise_const].
    apply total_ext. intros w _. destruct (dyn w s a) as [[s' r] e]. destruct e; [reflexivity|]. cbn [nstep_target]. now rewrite mean_const.
  - rewrite mean_from_after, (EV s). apply expectation_ext_in. intros a Ha. now apply target_after.
Qed.
Lemma target_action : forall n T s a, (1 <= n)%nat -> enough T s n -> (a < nA)%nat -> mean_after T s a (nstep_target gamma v n) = aval s a.
Proof. intros [|m] T s a Hn HE Ha; [lia|]. apply target_after; auto. apply target_mean. Qed.
Lemma discounted_mean : forall T s, ends nA P dyn T s -> mean_from T s (discounted gamma) = v s.
Proof.
  induction T as [|T IH]; intros s H; [contradiction|]. rewrite mean_S, (EV s). apply expectation_ext_in. intros a Ha. unfold action_value. apply total_ext. intros w _. destruct (Req_dec (nth w P 0) 0) as [->|NZ]; [lra|]. f_equal. destruct (dyn w s a) as [[s' r] e] eqn:E. cbn [ends] in H. destruct (H w a s' r e NZ Ha E) as [->|X]; [cbn; lra|]. destruct e; [cbn; lra|]. cbn [discounted]. rewrite mean_affine, IH by auto. reflexivity.
Qed.
(** TD errors of an exact critic and returns have the same mean products with functions of mean 0. *)
Lemma td_return : forall g n h, (1 <= n)%nat -> (forall s, expectation nA (prob s) (h s) = 0) -> forall T s, ends nA P dyn T s ->
  mean_from T s (td_sum g gamma v v n (fun x => x) h) = mean_from T s (return_sum g gamma h).
Proof.
  intros g n h Hn Hh. destruct n as [|m]; [lia|]. induction T as [|T IH]; intros s HE; [contradiction|]. rewrite !mean_S.
  transitivity (expectation nA (prob s) (fun a => total (map (fun w => nth w P 0 * (let '(s', r, e) := dyn w s a in if e then return_sum g gamma h [(s, a, r)] else mean_from T s' (fun es => return_sum g gamma h ((s, a, r) :: es)))) (seq 0 (length P))) + - v s * h s a)).
  - apply expectation_ext_in. intros a Ha. rewrite <- (noise_const (- v s * h s a)) at 1. rewrite <- total_plus. apply total_ext. intros w _. destruct (Req_dec (nth w P 0) 0) as [->|NZ]; [lra|]. rewrite <- Rmult_plus_distr_l. f_equal. destruct (dyn w s a) as [[s' r] e] eqn:E. destruct e.
    + cbn [td_sum return_sum nstep_target discounted]. rewrite target_nil. lra.
    + assert (HN : enough T s' m) by (eapply enough_next; eauto; split; [lia|right; exact HE]). assert (HE' : ends nA P dyn T s'). { cbn [ends] in HE. destruct (HE w a s' r false NZ Ha E) as [X|X]; [discriminate|exact X]. }
      cbn [td_sum return_sum nstep_target discounted].
      rewrite (@mean_ext nA net P dyn th T s' (fun es => (r + gamma * nstep_target gamma v m es - v s) * h s a + g * td_sum g gamma v v (S m) (fun x => x) h es) (fun es => ((r - v s) * h s a + gamma * h s a * nstep_target gamma v m es) + g * td_sum g gamma v v (S m) (fun x => x) h es)) by (intros; lra).
      rewrite (@mean_ext nA net P dyn th T s' (fun es => (r + gamma * discounted gamma es) * h s a + g * return_sum g gamma h es) (fun es => (r * h s a + gamma * h s a * discounted gamma es) + g * return_sum g gamma h es)) by (intros; lra).
      rewrite !mean_plus, !mean_const, !mean_scal, IH by auto. rewrite target_mean by auto. rewrite discounted_mean by auto. lra.
  - unfold expectation. rewrite (@total_ext _ _ (fun a => prob s a * total (map (fun w => nth w P 0 * (let '(s', r, e) := dyn w s a in if e then return_sum g gamma h [(s, a, r)] else mean_from T s' (fun es => return_sum g gamma h ((s, a, r) :: es)))) (seq 0 (length P))) + - v s * (prob s a * h s a))) by (intros; lra).
    rewrite total_plus, total_scal. specialize (Hh s). unfold expectation in Hh. rewrite Hh. lra.
Qed.
End Means.
Lemma score_mean : forall nA N net score, smooth_policy nA N net score -> forall th s i, length th = N -> (i < N)%nat -> expectation nA (prob nA net th s) (fun a => score th s a i) = 0.
Proof.
  intros nA N net score SM th s i L Hi. rewrite <- (@dlog_mean nA N net score SM th (fun j => if Nat.eqb j i then 1 else 0) s L). apply expectation_ext_in. intros a Ha. unfold dlog. symmetry. exact (@pick N (fun j => score th s a j) i Hi).
Qed.
(** A fixed quantity, the policy of the first step moves. *)
Lemma lookahead_gradient : forall nA N net score, smooth_policy nA N net score -> forall th s q, length th = N ->
  gradient (fun th' => expectation nA (prob nA net th' s) q) th (map (fun i => expectation nA (prob nA net th s) (fun a => q a * score th s a i)) (seq 0 N)).
Proof.
  intros nA N net score SM th s q L. split; [now rewrite map_length, seq_length|]. intros i Hi. rewrite L in Hi. rewrite (@nth_map_any _ _ _ (seq 0 N) i 0 0%nat) by (rewrite seq_length; lia). rewrite seq_nth by lia. cbn [Nat.add].
  unfold expectation. apply (@deriv_total nat (fun a u => prob nA net (firstn i th ++ u :: skipn (S i) th) s a * q a) (fun a _ => prob nA net th s a * (q a * score th s a i))). intros a Ha. apply in_seq in Ha.
  pose proof (@prob_deriv nA N net score SM _ _ _ s a (@coordinate_velocity N th i L Hi) ltac:(lia)) as D. cbv beta in D. rewrite (@coordinate_same N th i L Hi) in D. unfold dlog in D. rewrite (@pick N (fun j => score th s a j) i Hi) in D.
  apply (@derivable_pt_lim_same (fun u => q a * prob nA net (firstn i th ++ u :: skipn (S i) th) s a)); [intros; lra|]. replace (prob nA net th s a * (q a * score th s a i)) with (q a * (prob nA net th s a * score th s a i)) by lra. apply (@derivable_pt_lim_scal (fun u => prob nA net (firstn i th ++ u :: skipn (S i) th) s a)). exact D.
Qed.

(** * To first order in the learning rates *)
Lemma pull_continuous : forall loss pull, pulls_by loss pull -> forall x, continuity_pt pull x.
Proof.
  intros loss pull PB x. assert (LI : forall y z, Rabs (pull y - pull z) <= Rabs (y - z)).
  { intros y z. destruct PB as [|d Hd]; [lra|]. unfold Rmax, Rmin, Rabs. repeat destruct (Rle_dec _ _); repeat destruct (Rcase_abs _); lra. }
  intros eps He. exists eps. split; auto. intros y [_ Hy]. eapply Rle_lt_trans; [apply LI|exact Hy].
Qed.
Section First.
Variables nA Nv N : nat.
Variable vnet : list R -> nat -> R.
Variable slope : list R -> nat -> nat -> R.
Hypothesis SV : smooth_value Nv vnet slope.
Variable loss : list R -> list R -> option (list R) -> outcome (option R).
Variable pull : R -> R.
Hypothesis PB : pulls_by loss pull.
Variable net : list R -> nat -> list R.
Variable score : list R -> nat -> nat -> nat -> R.
Hypothesis SM : smooth_policy nA N net score.
Variables tau gamma c : R.
Variable n : nat.
Notation moved := (fun lr => ac_moved Nv N vnet slope score pull (c * lr) lr tau gamma n).
Notation after := (fun lr => ac_after Nv N vnet slope score pull (c * lr) lr tau gamma n).
Variables w0 th0 : list R.
Hypothesis Lw : length w0 = Nv.
Hypothesis Lt : length th0 = N.

Lemma value_continuous : forall C x s, velocity Nv C 0 x -> continuity_pt (fun lr => vnet (C lr) s) 0.
Proof. intros C x s V. eapply derivable_continuous_at. apply (proj1 (SV s) C 0 x V). Qed.
Lemma target_continuous : forall C x m es, velocity Nv C 0 x -> continuity_pt (fun lr => nstep_target gamma (vnet (C lr)) m es) 0.
Proof.
  intros C x m es V. revert es. induction m as [|m IH]; intros [|[[s a] r] es]; cbn [nstep_target]; try (apply continuity_pt_const; intros y z; reflexivity).
  - eapply value_continuous; eauto.
  - apply (@continuity_pt_plus (fun _ => r) (fun lr => gamma * nstep_target gamma (vnet (C lr)) m es)); [apply continuity_pt_const; intros y z; reflexivity|]. apply (@continuity_pt_scal (fun lr => nstep_target gamma (vnet (C lr)) m es)). apply IH.
Qed.
Lemma same_list : forall (x : list R) m (f : nat -> R), length x = m -> (forall i, f i = 0) -> map (fun i => nth i x 0 + f i) (seq 0 m) = x.
Proof. intros x m f Lx Hf. transitivity (map (fun i => nth i x 0) (seq 0 m)); [apply map_ext; intros; rewrite Hf; lra|symmetry; now apply list_seq]. Qed.
(** The curves of critic and target network. *)
Definition moving (C : R -> acparams) : Prop :=
  (exists x, velocity Nv (fun lr => p_w (C lr)) 0 x) /\ p_w (C 0) = w0 /\ p_th (C 0) = th0 /\
  ((forall lr, p_u (C lr) = None) \/ exists U x, (forall lr, p_u (C lr) = Some (U lr)) /\ velocity Nv U 0 x /\ U 0 = w0).
Lemma step_velocity : forall M (C : R -> list R) x k (f : R -> nat -> R), velocity M C 0 x -> (forall i, (i < M)%nat -> continuity_pt (fun lr => f lr i) 0) ->
  velocity M (fun lr => map (fun i => nth i (C lr) 0 + k * lr * f lr i) (seq 0 M)) 0 (fun i => x i + k * f 0 i).
Proof.
  intros M C x k f V Hf. split; [intros; now rewrite map_length, seq_length|]. intros i Hi. apply (@derivable_pt_lim_same (fun lr => nth i (C lr) 0 + k * (lr * f lr i))). { intros u. rewrite (@nth_map_any _ _ _ (seq 0 M) i 0 0%nat) by (rewrite seq_length; lia). rewrite seq_nth by lia. cbn [Nat.add]. lra. }
  apply (@derivable_pt_lim_plus (fun lr => nth i (C lr) 0) (fun lr => k * (lr * f lr i))); [now apply V|]. apply (@derivable_pt_lim_scal (fun lr => lr * f lr i)). exact (@deriv_times_id (fun lr => f lr i) (Hf i Hi)).
Qed.
Lemma after_first : forall es, legal_actions nA es -> forall C x, moving C -> velocity N (fun lr => p_th (C lr)) 0 x ->
  velocity N (fun lr => p_th (after lr (C lr) es)) 0 (fun i => x i + td_sum 1 gamma (vnet w0) (vnet w0) n pull (fun s a => score th0 s a i) es) /\ p_th (after 0 (C 0) es) = th0.
Proof.
  induction es as [|[[s a] r] es IH]; intros LA C x MV V.
  - cbn [ac_after td_sum]. split; [|apply MV]. destruct V as [V1 V2]. split; auto. intros i Hi. rewrite Rplus_0_r. auto.
  - assert (Ha := LA s a r ltac:(now left)). destruct MV as ([xw VW] & E1 & E2 & MU). set (e1 := (s, a, r) :: es).
    set (u := fun lr => match p_u (C lr) with Some u => u | None => p_w (C lr) end).
    assert (VU : exists xu, velocity Nv u 0 xu). { destruct MU as [Z|(U & xu & EU & VU & _)]; [exists xw|exists xu]. - destruct VW as [A B]. split; intros; unfold u. { rewrite Z. auto. } apply (@derivable_pt_lim_same (fun lr => nth i (p_w (C lr)) 0)); auto. intros lr. now rewrite Z. - destruct VU as [A B]. split; intros; unfold u. { rewrite EU. auto. } apply (@derivable_pt_lim_same (fun lr => nth i (U lr) 0)); auto. intros lr. now rewrite EU. }
    assert (U0 : u 0 = w0). { unfold u. destruct MU as [Z|(U & xu & EU & _ & E0)]; [now rewrite Z|now rewrite EU]. }
    destruct VU as [xu VU]. set (d := fun lr => pull (nstep_target gamma (vnet (u lr)) n e1 - vnet (p_w (C lr)) s)).
    assert (CD : continuity_pt d 0). { unfold d. apply (@continuity_pt_comp (fun lr => nstep_target gamma (vnet (u lr)) n e1 - vnet (p_w (C lr)) s) pull); [|eapply pull_continuous; eauto]. apply (@continuity_pt_minus (fun lr => nstep_target gamma (vnet (u lr)) n e1) (fun lr => vnet (p_w (C lr)) s)); [eapply target_continuous; eauto|eapply (@value_continuous (fun lr => p_w (C lr))); eauto]. }
    assert (D0 : d 0 = pull (nstep_target gamma (vnet w0) n e1 - vnet w0 s)) by (unfold d; now rewrite U0, E1).
    assert (VT : velocity N (fun lr => p_th (moved lr (C lr) e1)) 0 (fun i => x i + 1 * (d 0 * score th0 s a i))).
    { pose proof (@step_velocity N (fun lr => p_th (C lr)) x 1 (fun lr i => d lr * score (p_th (C lr)) s a i) V) as ST. cbv beta in ST. rewrite E2 in ST.
      assert (ST' := ST (fun i Hi => @continuity_pt_mult d (fun lr => score (p_th (C lr)) s a i) 0 CD (proj2 (proj2 (proj2 SM) s a Ha) _ _ _ i Hi V))). destruct ST' as [A B]. split.
      - intros lr. unfold e1, ac_moved. cbn [p_th]. now rewrite map_length, seq_length.
      - intros i Hi. specialize (B i Hi). eapply derivable_pt_lim_same; [|exact B]. intros lr. unfold e1, ac_moved. cbn [p_th]. f_equal. apply map_ext. intros j. unfold d, u, e1. lra. }
    assert (VW' : velocity Nv (fun lr => p_w (moved lr (C lr) e1)) 0 (fun i => xw i + c * (d 0 * slope w0 s i))).
    { pose proof (@step_velocity Nv (fun lr => p_w (C lr)) xw c (fun lr i => d lr * slope (p_w (C lr)) s i) VW) as ST. cbv beta in ST. rewrite E1 in ST.
      assert (ST' := ST (fun i Hi => @continuity_pt_mult d (fun lr => slope (p_w (C lr)) s i) 0 CD (proj2 (SV s) _ _ _ i Hi VW))). destruct ST' as [A B]. split.
      - intros lr. unfold e1, ac_moved. cbn [p_w]. now rewrite map_length, seq_length.
      - intros i Hi. specialize (B i Hi). eapply derivable_pt_lim_same; [|exact B]. intros lr. unfold e1, ac_moved. cbn [p_w]. reflexivity. }
    assert (W0 : p_w (moved 0 (C 0) e1) = w0). { unfold e1, ac_moved. cbn [p_w]. rewrite E1. apply same_list; auto. intros; lra. }
    assert (T0 : p_th (moved 0 (C 0) e1) = th0). { unfold e1, ac_moved. cbn [p_th]. rewrite E2. apply same_list; auto. intros; lra. }
    assert (MV' : moving (fun lr => moved lr (C lr) e1)).
    { split; [eexists; exact VW'|]. split; [exact W0|]. split; [exact T0|]. destruct MU as [Z|(U & xu' & EU & VU' & E0)].
      - left. intros lr. unfold e1, ac_moved. cbn [p_u]. now rewrite Z.
      - right. exists (fun lr => map (fun i => (1 - tau) * nth i (U lr) 0 + tau * nth i (p_w (moved lr (C lr) e1)) 0) (seq 0 Nv)), (fun i => (1 - tau) * xu' i + tau * (xw i + c * (d 0 * slope w0 s i))).
        split. { intros lr. unfold e1, ac_moved. cbn [p_u p_w]. now rewrite EU. } split.
        + split; [intros; now rewrite map_length, seq_length|]. intros i Hi. apply (@derivable_pt_lim_same (fun lr => (1 - tau) * nth i (U lr) 0 + tau * nth i (p_w (moved lr (C lr) e1)) 0)). { intros lr. rewrite (@nth_map_any _ _ _ (seq 0 Nv) i 0 0%nat) by (rewrite seq_length; lia). now rewrite seq_nth by lia. }
          apply (@derivable_pt_lim_plus (fun lr => (1 - tau) * nth i (U lr) 0) (fun lr => tau * nth i (p_w (moved lr (C lr) e1)) 0)); [apply (@derivable_pt_lim_scal (fun lr => nth i (U lr) 0)); now apply VU'|apply (@derivable_pt_lim_scal (fun lr => nth i (p_w (moved lr (C lr) e1)) 0)); now apply VW'].
        + rewrite W0, E0. transitivity (map (fun i => nth i w0 0) (seq 0 Nv)); [apply map_ext; intros; lra|symmetry; now apply list_seq]. }
    destruct (IH (legal_tail LA) (fun lr => moved lr (C lr) e1) _ MV' VT) as [[A B] R0]. split; [|exact R0]. split; [exact A|]. intros i Hi. specialize (B i Hi).
    match goal with |- derivable_pt_lim _ _ ?q => match type of B with derivable_pt_lim _ _ ?p => replace q with p; [exact B|] end end. assert (E : td_sum 1 gamma (vnet w0) (vnet w0) n pull (fun s a => score th0 s a i) e1 = pull (nstep_target gamma (vnet w0) n e1 - vnet w0 s) * score th0 s a i + 1 * td_sum 1 gamma (vnet w0) (vnet w0) n pull (fun s a => score th0 s a i) es) by reflexivity. transitivity (x i + td_sum 1 gamma (vnet w0) (vnet w0) n pull (fun s a => score th0 s a i) e1); [|reflexivity]. rewrite E, D0. lra.
Qed.
End First.

(** * Performance *)
Section Performance.
Variables nA Nv N : nat.
Variable vnet : list R -> nat -> R.
Variable slope : list R -> nat -> nat -> R.
Hypothesis SV : smooth_value Nv vnet slope.
Variable loss : list R -> list R -> option (list R) -> outcome (option R).
Variable pull : R -> R.
Hypothesis PB : pulls_by loss pull.
Variable net : list R -> nat -> list R.
Variable score : list R -> nat -> nat -> nat -> R.
Hypothesis SM : smooth_policy nA N net score.
Variables tau gamma c : R.
Variable n : nat.
Variable p : acparams.
Hypothesis HZ : par_sized Nv N p.
Hypothesis HU : p_u p = None \/ p_u p = Some (p_w p).
Variable f : R -> R -> list visit -> acparams.
Hypothesis FA : forall lrv lrp es, es <> [] -> legal_actions nA es -> f lrv lrp es = ac_after Nv N vnet slope score pull lrv lrp tau gamma n p es.
Variable P : list R.
Variable dyn : nat -> nat -> nat -> nat * R * bool.
Hypothesis TP : total P = 1.
Variable rho : list R.
Variable T : nat.
Hypothesis HT : (1 <= T)%nat.
Notation mean := (mean_episode nA net P dyn rho (p_th p) T).
Notation J := (expected_return nA net P dyn gamma rho T).
Notation dir := (fun i => mean (td_sum 1 gamma (vnet (p_w p)) (vnet (p_w p)) n pull (fun s a => score (p_th p) s a i))).
Lemma first_order : forall es, es <> [] -> legal_actions nA es -> velocity N (fun lr => p_th (f (c * lr) lr es)) 0 (fun i => td_sum 1 gamma (vnet (p_w p)) (vnet (p_w p)) n pull (fun s a => score (p_th p) s a i) es) /\ p_th (f (c * 0) 0 es) = p_th p.
Proof.
  intros es NE LA. destruct HZ as (L1 & L2 & L3). destruct (@after_first nA Nv N vnet slope SV loss pull PB net score SM tau gamma c n (p_w p) (p_th p) L1 L2 es LA (fun _ => p) (fun _ => 0)) as [[A B] C].
  - split; [exists (fun _ => 0); now apply const_velocity|]. split; auto. split; auto. destruct HU as [U|U]; [left; auto|right]. exists (fun _ => p_w p), (fun _ => 0). split; auto. split; [now apply const_velocity|reflexivity].
  - now apply const_velocity.
  - split; [|rewrite FA; auto]. split; [intros lr; rewrite FA by auto; apply A|]. intros i Hi. specialize (B i Hi). rewrite Rplus_0_l in B. eapply derivable_pt_lim_same; [|exact B]. intros lr. now rewrite FA.
Qed.
Lemma ac_params_deriv : forall i, (i < N)%nat -> derivable_pt_lim (fun lr => mean (fun es => nth i (p_th (f (c * lr) lr es)) 0)) 0 (dir i).
Proof.
  intros i Hi. apply (@fixed_deriv nA N net score SM (p_th p) (proj1 (proj2 HZ)) P dyn rho T HT (fun lr es => nth i (p_th (f (c * lr) lr es)) 0)). intros es LA NE. now apply first_order.
Qed.
Lemma ac_performance : derivable_pt_lim (fun lr => mean (fun es => J (p_th (f (c * lr) lr es)))) 0 (total (map (fun i => mean (return_sum gamma gamma (fun s a => score (p_th p) s a i)) * dir i) (seq 0 N))).
Proof.
  assert (E : total (map (fun i => mean (return_sum gamma gamma (fun s a => score (p_th p) s a i)) * dir i) (seq 0 N)) = mean (fun es => total (map (fun i => mean (return_sum gamma gamma (fun s a => score (p_th p) s a i)) * td_sum 1 gamma (vnet (p_w p)) (vnet (p_w p)) n pull (fun s a => score (p_th p) s a i) es) (seq 0 N)))).
  { rewrite episode_sum. apply total_ext. intros i _. now rewrite episode_scal. }
  cbv beta in E |- *. rewrite E. apply (@fixed_deriv nA N net score SM (p_th p) (proj1 (proj2 HZ)) P dyn rho T HT (fun lr es => J (p_th (f (c * lr) lr es)))). intros es LA NE. destruct (first_order NE LA) as [V E']. pose proof (@return_deriv nA N net score SM gamma P dyn TP rho T _ _ _ V) as D. cbv beta in D. rewrite E' in D. exact D.
Qed.
Lemma ac_performance_0 : total rho = 1 -> mean (fun es => J (p_th (f (c * 0) 0 es))) = J (p_th p).
Proof.
  intros TR. rewrite (@episode_ext nA net (p_th p) P dyn rho T HT _ (fun es => J (p_th p) * 1)). 2:{ intros es LA NE. rewrite (proj2 (first_order NE LA)). lra. }
  rewrite episode_scal. unfold PgSpec.mean_episode at 1. rewrite (@total_ext _ _ (fun s => nth s rho 0)) by (intros s _; rewrite (@mean_one nA N net P dyn score SM (p_th p) T s (proj1 (proj2 HZ)) TP); lra). rewrite <- (@list_seq rho (length rho) eq_refl), TR. lra.
Qed.
End Performance.
(** With an exact critic and the squared loss, the mean direction is that of REINFORCE. *)
Lemma exact_direction : forall nA N net score, smooth_policy nA N net score -> forall g gamma th P dyn rho T v n i, length th = N -> total P = 1 -> evaluates nA net P dyn gamma th v -> (1 <= n)%nat -> (forall s, nth s rho 0 <> 0 -> ends nA P dyn T s) -> (i < N)%nat ->
  mean_episode nA net P dyn rho th T (td_sum g gamma v v n (fun x => x) (fun s a => score th s a i)) = mean_episode nA net P dyn rho th T (return_sum g gamma (fun s a => score th s a i)).
Proof.
  intros nA N net score SM g gamma th P dyn rho T v n i L TP EV Hn HE Hi. unfold mean_episode. apply total_ext. intros s _. destruct (Req_dec (nth s rho 0) 0) as [->|NZ]; [lra|]. f_equal.
  apply (@td_return nA N net score SM gamma th L P dyn TP v EV g n _ Hn); auto. intros s'. exact (@score_mean nA N net score SM th s' i L Hi).
Qed.
