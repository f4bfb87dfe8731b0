From Coq Require Import List Lia Bool Arith Reals Lra.
From Verif Require Import PyCommon CommonProofs UtilsModel UtilsSpec UtilsProofs2 UtilsProofs3 WrappersProofs DistModel DistSpec DistProofs DistProofs2 DistProofs3 LossModel LossSpec LossProofs QModel QProofs QProps TDModel TDSpec TDProofs TDProofs2 TDProofs3 TDProofs4 CoreModel CoreSpec CoreProofs LearnModel LearnSpec LearnProofs LearnProofs2 LearnProofs3 LearnProofs4 LearnProofs5 LearnProofs6 LearnProofs7 NoiseSpec NoiseProofs NoiseProofs2 NoiseProofs3.
Import ListNotations.
Set Implicit Arguments.
Local Open Scope R_scope.

(** * Means over independent noise *)
Lemma dist_ne : forall P, distribution P -> (1 <= length P)%nat.
Proof. intros [|p P] [_ E]; [exfalso; revert E; cbn; lra|cbn; lia]. Qed.
Section Mean.
Variable P : list R.
Hypothesis HP : distribution P.
Notation mean := (mean_over P).
Notation nW := (length P).
Lemma mean_ext : forall n f g, (forall ws, noise_list nW n ws -> f ws = g ws) -> mean n f = mean n g.
Proof.
  induction n as [|n IH]; intros f g H; cbn [mean_over]; [apply H; split; auto; intros ? []|]. apply total_ext. intros w Hw. apply in_seq in Hw. f_equal. apply IH. intros ws [L B]. apply H. split; [cbn; congruence|]. intros x [<-|Hx]; [lia|auto].
Qed.
Lemma mean_const : forall n c, mean n (fun _ => c) = c.
Proof.
  induction n as [|n IH]; intros c; cbn [mean_over]; auto. rewrite (@total_ext _ _ (fun w => c * nth w P 0)) by (intros; rewrite IH; ring). rewrite total_scal. rewrite (@P_total nW P HP eq_refl). ring.
Qed.
Lemma mean_plus : forall n f g, mean n (fun ws => f ws + g ws) = mean n f + mean n g.
Proof. induction n as [|n IH]; intros f g; cbn [mean_over]; auto. rewrite <- total_plus. apply total_ext. intros w _. rewrite IH. ring. Qed.
Lemma mean_scal : forall n c f, mean n (fun ws => c * f ws) = c * mean n f.
Proof. induction n as [|n IH]; intros c f; cbn [mean_over]; auto. rewrite <- total_scal. apply total_ext. intros w _. rewrite IH. ring. Qed.
Lemma mean_minus : forall n f g, mean n (fun ws => f ws - g ws) = mean n f - mean n g.
Proof. intros n f g. rewrite (@mean_ext n _ (fun ws => f ws + (-1) * g ws)) by (intros; ring). rewrite mean_plus, mean_scal. ring. Qed.
Lemma mean_total : forall (A : Type) (xs : list A) n (f : A -> list nat -> R), mean n (fun ws => total (map (fun x => f x ws) xs)) = total (map (fun x => mean n (f x)) xs).
Proof. induction xs as [|x xs IH]; intros n f; [exact (mean_const n 0)|]. cbn [map]. rewrite total_cons, <- IH, <- mean_plus. reflexivity. Qed.
Lemma mean_app : forall m n f, mean (m + n) f = mean m (fun a => mean n (fun b => f (a ++ b))).
Proof. induction m as [|m IH]; intros n f; [reflexivity|]. cbn [Nat.add mean_over]. apply total_ext. intros w _. f_equal. apply IH. Qed.
Lemma mean_coord : forall n i (f : nat -> R), (i < n)%nat -> mean n (fun ws => f (nth i ws 0%nat)) = total (map (fun w => nth w P 0 * f w) (seq 0 nW)).
Proof.
  induction n as [|n IH]; intros i f Hi; [lia|]. cbn [mean_over]. destruct i as [|i].
  - apply total_ext. intros w _. cbn [nth]. now rewrite mean_const.
  - cbn [nth]. rewrite (@total_ext _ _ (fun w => total (map (fun w => nth w P 0 * f w) (seq 0 nW)) * nth w P 0)); [rewrite total_scal, (@P_total nW P HP eq_refl); ring|]. intros w _. rewrite IH by lia. ring.
Qed.
End Mean.

(** * The mean of the values follows the mean environment *)
Section MeanRun.
Variables nS nA : nat.
Hypothesis HA : (1 <= nA)%nat.
Variable dyn : nat -> nat -> nat -> nat * R * bool.
Variable P : list R.
Hypothesis HP : distribution P.
Notation nW := (length P).
Hypothesis CL : all_closed nS nA nW dyn.
Variable gamma : R.
Hypothesis Hg : 0 <= gamma <= 1.
Variable pi : nat -> list R.
Hypothesis Hpi : forall s, length (pi s) = nA.
Variable lr : R.
Hypothesis Hlr : 0 < lr.
Notation cells := (nat -> nat -> R).
Definition vpi (s : nat) (h : nat -> R) : R := expectation nA (boltzmann nA (pi s)) h.
Notation rw := (row_worth dyn gamma vpi).
Notation mw := (mean_worth nW dyn gamma vpi P).
Definition upd (rows : list (nat * nat)) (W : list R) (g : nat -> cells) (Q : cells) : cells := fun s a =>
  Q s a + lr * (total (map (fun i => if same_pair (nth i rows (0, 0)%nat) (s, a) then nth i (clip_w W) 0 * (g i s a - Q s a) else 0) (seq 0 (length rows))) / INR (length rows)).
Definition tstate : Type := cells * cells.
Definition mstep (ht : bool) (x : tstate) (d : decision) : tstate :=
  match d with
  | DUpdate rows W => let Q := upd rows W (fun _ => mw (snd x)) (fst x) in (Q, if ht then snd x else Q)
  | DSync tau => (fst x, fun s a => (1 - tau) * snd x s a + tau * fst x s a)
  end.
Fixpoint mrun (ht : bool) (x : tstate) (ds : list decision) : tstate := match ds with [] => x | d :: ds' => mrun ht (mstep ht x d) ds' end.
Definition sstep (ht : bool) (x : tstate) (rows : list (nat * nat)) (W : list R) (ws : list nat) : tstate :=
  let Q := upd rows W (fun i => rw (snd x) (nth i ws 0%nat)) (fst x) in (Q, if ht then snd x else Q).
Fixpoint srun (ht : bool) (x : tstate) (ds : list decision) (ws : list nat) : tstate :=
  match ds with
  | [] => x
  | DUpdate rows W :: ds' => srun ht (sstep ht x rows W (firstn (length rows) ws)) ds' (skipn (length rows) ws)
  | DSync tau :: ds' => srun ht (mstep ht x (DSync tau)) ds' ws
  end.
Definition same (x x' : tstate) : Prop := forall s a, fst x s a = fst x' s a /\ snd x s a = snd x' s a.
Lemma rw_ext : forall T T' w s a, (forall s a, T s a = T' s a) -> rw T w s a = rw T' w s a.
Proof. intros T T' w s a E. unfold row_worth. destruct (ends (dyn w) s a); auto. do 2 f_equal. unfold vpi, expectation. apply total_ext. intros c _. now rewrite E. Qed.
Lemma mw_ext : forall T T' s a, (forall s a, T s a = T' s a) -> mw T s a = mw T' s a.
Proof. intros T T' s a E. unfold mean_worth. apply total_ext. intros w _. now rewrite (rw_ext _ T'). Qed.
Lemma upd_ext : forall rows W g g' Q Q' s a, Q s a = Q' s a -> (forall i, (i < length rows)%nat -> nth i rows (0, 0)%nat = (s, a) -> g i s a = g' i s a) -> upd rows W g Q s a = upd rows W g' Q' s a.
Proof.
  intros rows W g g' Q Q' s a E G. unfold upd. rewrite E. do 3 f_equal. apply total_ext. intros i Hi. apply in_seq in Hi. destruct (same_pair (nth i rows (0, 0)%nat) (s, a)) eqn:Si; auto. apply same_pair_spec in Si. rewrite (G i) by (auto; lia). reflexivity.
Qed.
Lemma mstep_same : forall ht x x' d, same x x' -> same (mstep ht x d) (mstep ht x' d).
Proof.
  intros ht x x' d E. destruct d as [rows W|tau].
  - assert (Q : forall s a, fst (mstep ht x (DUpdate rows W)) s a = fst (mstep ht x' (DUpdate rows W)) s a). { intros s a. cbn [mstep fst]. apply upd_ext; [apply E|]. intros. apply mw_ext. intros. apply E. }
    intros s a. split; [apply Q|]. cbn [mstep snd]. destruct ht; [apply E|apply Q].
  - intros s a. cbn [mstep fst snd]. destruct (E s a) as [-> ->]. auto.
Qed.
Lemma mrun_same : forall ht ds x x', same x x' -> same (mrun ht x ds) (mrun ht x' ds).
Proof. intros ht. induction ds as [|d ds IH]; intros x x' E; auto. cbn [mrun]. apply IH. now apply mstep_same. Qed.
Notation mean := (mean_over P).
Definition avg (n : nat) (X : list nat -> tstate) : tstate := (fun s a => mean n (fun ws => fst (X ws) s a), fun s a => mean n (fun ws => snd (X ws) s a)).
Lemma mean_div : forall n f c, mean n (fun ws => f ws / c) = mean n f / c.
Proof. intros n f c. unfold Rdiv. rewrite (@mean_ext P n _ (fun ws => / c * f ws)) by (intros; ring). rewrite mean_scal. ring. Qed.
Lemma mean_upd : forall n rows W (g : list nat -> nat -> cells) (Q : list nat -> cells) s a,
  mean n (fun ws => upd rows W (g ws) (Q ws) s a) = upd rows W (fun i s a => mean n (fun ws => g ws i s a)) (fun s a => mean n (fun ws => Q ws s a)) s a.
Proof.
  intros n rows W g Q s a. unfold upd. rewrite mean_plus, mean_scal, mean_div, mean_total by auto. do 3 f_equal. apply total_ext. intros i _. destruct (same_pair (nth i rows (0, 0)%nat) (s, a)); [|now apply mean_const]. now rewrite mean_scal, mean_minus.
Qed.
Lemma mean_rw : forall n (T : list nat -> cells) w s a, mean n (fun ws => rw (T ws) w s a) = rw (fun s a => mean n (fun ws => T ws s a)) w s a.
Proof.
  intros n T w s a. unfold row_worth. destruct (ends (dyn w) s a); [now apply mean_const|]. rewrite mean_plus, mean_const, mean_scal by auto. do 2 f_equal. unfold vpi, expectation. rewrite mean_total by auto. apply total_ext. intros c _. apply mean_scal.
Qed.
Lemma mean_mw : forall n (T : list nat -> cells) s a, mean n (fun ws => mw (T ws) s a) = mw (fun s a => mean n (fun ws => T ws s a)) s a.
Proof. intros n T s a. unfold mean_worth. rewrite mean_total by auto. apply total_ext. intros w _. now rewrite mean_scal, mean_rw. Qed.
Lemma avg_mstep : forall n X ht d, same (avg n (fun ws => mstep ht (X ws) d)) (mstep ht (avg n X) d).
Proof.
  intros n X ht d. destruct d as [rows W|tau].
  - assert (Q : forall s a, mean n (fun ws => upd rows W (fun _ => mw (snd (X ws))) (fst (X ws)) s a) = upd rows W (fun _ => mw (snd (avg n X))) (fst (avg n X)) s a).
    { intros s a. rewrite (mean_upd n rows W (fun ws _ => mw (snd (X ws))) (fun ws => fst (X ws)) s a). apply upd_ext; [reflexivity|]. intros. apply mean_mw. }
    intros s a. split; [apply Q|]. cbn [avg mstep snd]. destruct ht; [reflexivity|apply Q].
  - intros s a. split; [reflexivity|]. cbn [avg mstep fst snd]. now rewrite mean_plus, !mean_scal.
Qed.
Lemma avg_mrun : forall ht ds n X, same (avg n (fun ws => mrun ht (X ws) ds)) (mrun ht (avg n X) ds).
Proof.
  intros ht. induction ds as [|d ds IH]; intros n X; [intros s a; auto|]. cbn [mrun]. intros s a. destruct (IH n (fun ws => mstep ht (X ws) d) s a) as [-> ->]. apply mrun_same. apply avg_mstep.
Qed.
Lemma avg_sstep : forall ht x rows W, same (avg (length rows) (fun ws => sstep ht x rows W ws)) (mstep ht x (DUpdate rows W)).
Proof.
  intros ht x rows W. assert (Q : forall s a, mean (length rows) (fun ws => upd rows W (fun i => rw (snd x) (nth i ws 0%nat)) (fst x) s a) = upd rows W (fun _ => mw (snd x)) (fst x) s a).
  { intros s a. rewrite (mean_upd (length rows) rows W (fun ws i => rw (snd x) (nth i ws 0%nat)) (fun _ => fst x) s a). apply upd_ext; [now apply mean_const|]. intros i Hi _. rewrite (@mean_coord P HP (length rows) i (fun w => rw (snd x) w s a) Hi). reflexivity. }
  intros s a. split; [apply Q|]. cbn [avg mstep sstep snd]. destruct ht; [now apply mean_const|apply Q].
Qed.
Lemma same_trans : forall x y z, same x y -> same y z -> same x z.
Proof. intros x y z A B s a. destruct (A s a) as [-> ->]. apply B. Qed.
Lemma mean_run : forall ht ds x, same (avg (noises ds) (fun ws => srun ht x ds ws)) (mrun ht x ds).
Proof.
  intros ht. induction ds as [|[rows W|tau] ds IH]; intros x; [intros s a; auto| |].
  - apply same_trans with (avg (length rows) (fun ws => mrun ht (sstep ht x rows W ws) ds)).
    + change (noises (DUpdate rows W :: ds)) with (length rows + noises ds)%nat. intros s a. unfold avg. cbn [fst snd].
      assert (EX : forall a0 b0, noise_list nW (length rows) a0 -> srun ht x (DUpdate rows W :: ds) (a0 ++ b0) = srun ht (sstep ht x rows W a0) ds b0).
      { intros a0 b0 [L _]. cbn [srun]. rewrite firstn_app, skipn_app, L, Nat.sub_diag. rewrite <- L, firstn_all, skipn_all, firstn_O, skipn_O, app_nil_r. reflexivity. }
      split; rewrite mean_app; apply mean_ext; intros a0 Ha0; destruct (IH (sstep ht x rows W a0) s a) as [I1 I2]; cbn [avg fst snd] in I1, I2; rewrite <- ?I1, <- ?I2; apply mean_ext; intros b0 _; now rewrite EX.
    + apply same_trans with (mrun ht (avg (length rows) (fun ws => sstep ht x rows W ws)) ds); [apply (avg_mrun ht ds (length rows) (fun ws => sstep ht x rows W ws))|]. cbn [mrun]. apply mrun_same. apply avg_sstep.
  - cbn [mrun]. exact (IH (mstep ht x (DSync tau))).
Qed.

(** * The mean environment is learned *)
Variables (wl : R) (B : nat).
Hypothesis Hwl : 0 < wl.
Variable q : cells.
Hypothesis BE : forall s a, (s < nS)%nat -> (a < nA)%nat -> q s a = mw q s a.
Notation bet := (beta 1 lr wl B).
Hypothesis Hbet : 0 <= bet <= 1.
Definition dvis (d : decision) (s a : nat) : Prop := match d with DUpdate rows _ => In (s, a) rows | DSync _ => False end.
Definition dsync (d : decision) : option R := match d with DUpdate _ _ => None | DSync tau => Some tau end.
Definition err (c : cells) : cells := fun s a => Rabs (c s a - q s a).
Lemma mw_close : forall T D s a, 0 <= D -> le nS nA (err T) D -> (s < nS)%nat -> (a < nA)%nat -> Rabs (mw T s a - q s a) <= gamma * D.
Proof.
  intros T D s a HD E Hs Ha. rewrite (BE Hs Ha). unfold mean_worth. apply (@weighted_near nA nW HA (dist_ne HP) P HP eq_refl). intros w Hw. unfold row_worth. destruct (ends (dyn w) s a).
  - match goal with |- Rabs ?e <= _ => replace e with 0 by lra end. rewrite Rabs_R0. nra.
  - match goal with |- Rabs (?r + ?g * ?x - (?r + ?g * ?z)) <= _ => replace (r + g * x - (r + g * z)) with (g * (x - z)) by ring end. rewrite Rabs_mult, (Rabs_right gamma) by lra. apply Rmult_le_compat_l; [lra|]. apply expectation_close; auto. intros c Hc. apply E; auto. now apply (CL Hw Hs Ha).
Qed.
Lemma mean_step_upd : forall ht x d D, 0 <= D -> le nS nA (err (fst x)) D -> le nS nA (err (snd x)) D -> decision_ok nS nA lr wl B d -> dsync d = None ->
  (forall s a, (s < nS)%nat -> (a < nA)%nat -> exists c, 0 <= c <= 1 /\ (dvis d s a -> bet <= c) /\ err (fst (mstep ht x d)) s a <= (1 - c) * err (fst x) s a + c * (gamma * D)) /\
  (forall s a, (s < nS)%nat -> (a < nA)%nat -> err (snd (mstep ht x d)) s a <= if ht then err (snd x) s a else err (fst (mstep ht x d)) s a).
Proof.
  intros ht x d D HD E1 E2 OK NS. destruct d as [rows W|tau]; [|discriminate]. destruct OK as (NE & LB & LW & HR & HWt). split; [|intros s a Hs Ha; cbn [mstep fst snd]; destruct ht; lra].
  intros s a Hs Ha. pose proof (@mw_close (snd x) D s a HD E2 Hs Ha) as MC.
  destruct (@cell_mix (fun y h => h - y) (Rabs (mw (snd x) s a - fst x s a)) 1 lr wl B (length rows) (fun i => nth i (clip_w W) 0) (fun _ => mw (snd x) s a) (fun i => same_pair (nth i rows (0, 0)%nat) (s, a)) (fst x s a)) as (k & K1 & K2 & K3 & K4 & K5); auto.
  - intros G Q0 _. exists 1. lra.
  - lra.
  - destruct rows; [congruence|cbn; lia].
  - intros i Hi. rewrite clip_w_nth by lia. rewrite wclip. apply HWt. apply nth_In. lia.
  - intros; lra.
  - set (bt := total (map k (seq 0 (length rows)))) in *. exists bt. split; [exact K3|]. split.
    + intros V. apply In_nth_error in V. destruct V as [i NI]. assert (Hi : (i < length rows)%nat) by (apply nth_error_Some; congruence). apply (K4 i Hi LB). apply same_pair_spec. now apply nth_error_nth.
    + assert (EQ : fst (mstep ht x (DUpdate rows W)) s a = (1 - bt) * fst x s a + bt * mw (snd x) s a).
      { transitivity (fst x s a - lr * (total (map (fun i => if same_pair (nth i rows (0, 0)%nat) (s, a) then nth i (clip_w W) 0 * (fst x s a - mw (snd x) s a) else 0) (seq 0 (length rows))) / INR (length rows))).
        - cbn [mstep fst]. unfold upd, Rdiv. match goal with |- _ + lr * (?t * _) = _ - lr * (?t' * _) => replace t with (- t') end; [ring|]. replace (- total (map (fun i => if same_pair (nth i rows (0, 0)%nat) (s, a) then nth i (clip_w W) 0 * (fst x s a - mw (snd x) s a) else 0) (seq 0 (length rows)))) with ((-1) * total (map (fun i => if same_pair (nth i rows (0, 0)%nat) (s, a) then nth i (clip_w W) 0 * (fst x s a - mw (snd x) s a) else 0) (seq 0 (length rows)))) by ring. rewrite <- total_scal. apply total_ext. intros i _. destruct (same_pair _ _); ring.
        - rewrite K5. f_equal. rewrite (@total_ext _ (fun i => k i * mw (snd x) s a) (fun i => mw (snd x) s a * k i)) by (intros; ring). rewrite total_scal. fold bt. ring. }
      unfold err at 1. rewrite EQ. replace ((1 - bt) * fst x s a + bt * mw (snd x) s a - q s a) with ((1 - bt) * (fst x s a - q s a) + bt * (mw (snd x) s a - q s a)) by ring. eapply Rle_trans; [apply Rabs_triang|]. rewrite !Rabs_mult, (Rabs_right (1 - bt)), (Rabs_right bt) by lra. unfold err. assert (bt * Rabs (mw (snd x) s a - q s a) <= bt * (gamma * D)) by (apply Rmult_le_compat_l; lra). lra.
Qed.
Lemma mean_rounds : forall (ht : bool) tau0 rs (x : tstate) D, 0 < tau0 <= 1 -> 0 <= D -> le nS nA (err (fst x)) D -> le nS nA (err (snd x)) D ->
  (forall ds, In ds rs -> (forall d, In d ds -> decision_ok nS nA lr wl B d) /\
     if (ht : bool) then exists ds1 tau ds2, ds = ds1 ++ DSync tau :: ds2 /\ (forall s a, (s < nS)%nat -> (a < nA)%nat -> decides ds1 s a) /\ tau0 <= tau
     else (forall s a, (s < nS)%nat -> (a < nA)%nat -> decides ds s a) /\ forall d, In d ds -> exists rows W, d = DUpdate rows W) ->
  le nS nA (err (fst (mrun ht x (concat rs)))) ((1 - tau0 * (bet * (1 - gamma))) ^ length rs * D).
Proof.
  intros ht tau0 rs x D Ht HD E1 E2 RD.
  assert (CV : forall ds, (forall s a, (s < nS)%nat -> (a < nA)%nat -> decides ds s a) -> cover nS nA dvis ds). { intros ds H s a Hs Ha. destruct (H s a Hs Ha) as (rows & W & I1 & I2). exists (DUpdate rows W). auto. }
  destruct (@rounds_good nS nA tstate decision (fun x d => (mstep ht x d, Ok tt)) (fun x => err (fst x)) (fun x => err (snd x)) dvis dsync (decision_ok nS nA lr wl B) (fun _ => True) (fun _ => ht) gamma bet D Hg Hbet) with (rs := rs) (x := x) (D := D) (tau0 := tau0) as (x' & R & (_ & G & _) & _); auto.
  - intros o tau Ho So. destruct o; [discriminate|]. injection So as ->. exact Ho.
  - intros y o D' HD' _ F1 F2 OK NS. exists (mstep ht y o). split; auto. split; auto. split; auto. apply mean_step_upd; auto. lra.
  - intros y o tau _ OK So Hh. exists (mstep ht y o). split; auto. split; auto. split; auto. destruct o as [|tau']; [discriminate|]. injection So as ->. cbn in OK. intros s a Hs Ha. cbn [mstep fst snd]. split; [lra|]. unfold err.
    replace ((1 - tau) * snd y s a + tau * fst y s a - q s a) with ((1 - tau) * (snd y s a - q s a) + tau * (fst y s a - q s a)) by ring. eapply Rle_trans; [apply Rabs_triang|]. rewrite !Rabs_mult, (Rabs_right (1 - tau)), (Rabs_right tau) by lra. lra.
  - intros o tau So s a. destruct o; [discriminate|]. intros [].
  - lra.
  - split; auto.
  - intros ds I. destruct (RD ds I) as [OK X]. split; auto. destruct ht.
    + destruct X as (ds1 & tau & ds2 & -> & C & Hta). exists ds1, (DSync tau), tau, ds2. auto.
    + destruct X as [C NS]. split; auto. intros d Hd. destruct (NS d Hd) as (rows & W & ->). reflexivity.
  - assert (RR : forall ds x, run (fun x d => (mstep ht x d, Ok tt)) x ds = (mrun ht x ds, Ok tt)) by (induction ds as [|d ds IH]; intros z; auto; cbn [run mrun]; now rewrite IH).
    rewrite RR in R. injection R as <-. exact G.
Qed.
End MeanRun.

(** * The programs *)
Section Follow.
Variables nS nA nW : nat.
Hypothesis HA : (1 <= nA)%nat.
Variable net : list R -> qfun nat R.
Hypothesis T : tabular nS nA net.
Variable dyn : nat -> nat -> nat -> nat * R * bool.
Hypothesis CL : all_closed nS nA nW dyn.
Variable gamma : R.
Variable pi : nat -> list R.
Hypothesis Hpi : forall s, length (pi s) = nA.
Variables (grads : list R -> list R -> fbatch nat -> list R) (sub : nat -> nat -> bool) (lr : R).
Variable P0 : list R.
Notation target := (target_expected nA net pi).
Hypothesis GR : noisy_differentiates nS nA nW dyn gamma net target mse grads.
Notation tq := (tq nA).
Definition shows (y : sys) (x : tstate) : Prop := forall s a, (s < nS)%nat -> (a < nA)%nat -> tq (tab (q_params y)) s a = fst x s a /\ tq (tab (targ_params y)) s a = snd x s a.
Lemma follow_run : forall ds ws os y x, follows nS nA nW dyn gamma ds ws os -> ok_sys nS nA sub lr y -> shows y x -> (has_targ y = false -> forall d, In d ds -> exists rows W, d = DUpdate rows W) ->
  exists y', yrun nA net target mse grads sub y os = (y', Ok tt) /\ ok_sys nS nA sub lr y' /\ has_targ y' = has_targ y /\ shows y' (srun nA dyn P0 gamma pi lr (has_targ y) x ds ws).
Proof.
  intros ds ws os y x F. revert y x. induction F as [|rows ws b ds ws' os SA F IH|tau ds ws os F IH]; intros y x OK SH NS.
  - exists y. auto.
  - destruct OK as (SG & [Q L] & [P Lt]).
    assert (ST := target_expected_sound HA T pi Hpi).
    destruct (@sampled_update nS nA nW HA net T dyn gamma target (by_policy nA pi) ST (vpi nA pi) ltac:(reflexivity) mse1 (fun y h => h - y) mse_deriv grads sub lr GR y _ _ rows ws b SG Q L P Lt SA) as (y' & th' & G & Y1 & Y2 & Y3 & Y4 & Y5 & LG & WG & C).
    change (zip_loss mse1) with mse in Y1. cbn [yrun]. rewrite Y1.
    assert (TY : tab (q_params y') = th') by (rewrite Y4; reflexivity).
    assert (TP : targ_params y' = if has_targ y then targ_params y else q_params y'). { unfold targ_params, has_targ. rewrite Y3. destruct (y_targ y); reflexivity. }
    assert (HT : has_targ y' = has_targ y) by (unfold has_targ; now rewrite Y3).
    assert (LWs : length ws = length rows) by (destruct SA as (_ & _ & _ & _ & _ & _ & _ & L4 & _); exact L4).
    assert (QS : forall s a, (s < nS)%nat -> (a < nA)%nat -> tq th' s a = fst (sstep nA dyn gamma pi lr (has_targ y) x rows (fb_W b) ws) s a).
    { intros s a Hs Ha. rewrite (C s a Hs Ha). cbn [sstep fst]. unfold upd. destruct (SH s a Hs Ha) as [E1 _]. rewrite E1. unfold Rminus at 1. f_equal. rewrite <- Ropp_mult_distr_r_reverse. f_equal. unfold Rdiv. rewrite <- Ropp_mult_distr_l_reverse. f_equal.
      replace (- total (map (fun i => if same_pair (nth i rows (0, 0)%nat) (s, a) then nth i (clip_w (fb_W b)) 0 * (fst x s a - nth i G 0) else 0) (seq 0 (length rows)))) with ((-1) * total (map (fun i => if same_pair (nth i rows (0, 0)%nat) (s, a) then nth i (clip_w (fb_W b)) 0 * (fst x s a - nth i G 0) else 0) (seq 0 (length rows)))) by ring.
      rewrite <- total_scal. apply total_ext. intros i Hi. apply in_seq in Hi. destruct (same_pair (nth i rows (0, 0)%nat) (s, a)) eqn:Si; [|ring]. apply same_pair_spec in Si. assert (NI : nth_error rows i = Some (s, a)) by (rewrite <- Si; apply nth_error_nth'; lia).
      destruct (sampled_rows HA SA _ NI) as (Hw & _). destruct (WG _ _ _ NI) as (m & M & ->). red in M. unfold row_worth. rewrite M. assert (CC := CL Hw Hs Ha).
      replace (expectation nA (boltzmann nA (pi (next (dyn (nth i ws 0%nat)) s a))) (tq (tab (targ_params y)) (next (dyn (nth i ws 0%nat)) s a))) with (vpi nA pi (next (dyn (nth i ws 0%nat)) s a) (snd x (next (dyn (nth i ws 0%nat)) s a))); [ring|].
      unfold vpi, expectation. apply total_ext. intros c Hc. apply in_seq in Hc. f_equal. symmetry. apply SH; auto. lia. }
    destruct (IH y' (sstep nA dyn gamma pi lr (has_targ y) x rows (fb_W b) ws)) as (y2 & R2 & O2 & H2 & S2).
    + split; auto. split; [split; [now rewrite TY|congruence]|rewrite TP; destruct (has_targ y); split; auto; [now rewrite TY|congruence]].
    + intros s a Hs Ha. rewrite TY, TP. split; [now apply QS|]. destruct (has_targ y); cbn [sstep snd]; [now apply SH|]. rewrite TY. now apply QS.
    + rewrite HT. intros N d Hd. apply NS; auto. now right.
    + exists y2. rewrite R2. split; auto. split; auto. split; [congruence|]. cbn [srun]. rewrite firstn_app, skipn_app, LWs, Nat.sub_diag. rewrite <- LWs, firstn_all, skipn_all, firstn_O, skipn_O, app_nil_r. cbn [app]. rewrite HT in S2. exact S2.
  - destruct OK as (SG & [Q L] & [P Lt]). destruct (y_targ y) as [t|] eqn:E; [|unfold has_targ in NS; rewrite E in NS; destruct (NS eq_refl (DSync tau) (or_introl eq_refl)) as (? & ? & ?); discriminate].
    destruct (@ystep_sync nA net target mse grads sub lr y tau _ _ t SG E Q P) as (y' & t' & Y1 & Y2 & Y3 & Y4 & Y5); [lia|]. cbn [yrun]. rewrite Y1.
    assert (T1 : tab (q_params y') = tab (q_params y)) by (rewrite Y4; reflexivity). assert (T2 := f_equal tab Y5). unfold tab in T2 at 2. cbn [unwrap wrap] in T2.
    assert (HT : has_targ y' = has_targ y) by (unfold has_targ; now rewrite Y3, E).
    destruct (IH y' (mstep nA dyn P0 gamma pi lr (has_targ y) x (DSync tau))) as (y2 & R2 & O2 & H2 & S2).
    + split; auto. split; split; [now rewrite T1|congruence|rewrite T2; exact Y5|rewrite T2, map_length, seq_length; exact Lt].
    + intros s a Hs Ha. assert (XX := index_lt Hs Ha). rewrite T1, T2. destruct (SH s a Hs Ha) as [E1 E2]. split; [exact E1|]. cbn [mstep snd]. rewrite <- E1, <- E2. unfold LearnProofs.tq. rewrite (@nth_map_any _ _ _ (seq 0 (length (tab (targ_params y)))) _ 0 0%nat) by (rewrite seq_length; lia). rewrite seq_nth by lia. reflexivity.
    + rewrite HT. intros N d Hd. apply NS; auto. now right.
    + exists y2. rewrite R2. split; auto. split; auto. split; [congruence|]. rewrite HT in S2. exact S2.
Qed.
End Follow.
