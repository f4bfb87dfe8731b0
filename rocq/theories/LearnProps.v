(** C102-C104: what training does.  Specifications in LearnSpec.v. *)
From Coq Require Import List Lia Bool Arith Reals Lra.
From Verif Require Import PyCommon CommonProofs UtilsModel UtilsSpec UtilsProofs2 UtilsProofs3 WrappersProofs DistModel DistSpec DistProofs DistProofs2 DistProofs3 LossModel LossSpec LossProofs QModel QProofs QProps TDModel TDSpec TDProofs TDProofs2 TDProofs3 TDProofs4 CoreModel CoreSpec CoreProofs CoreProofs2 TracerModel WorkerModel LearnModel LearnSpec LearnProofs LearnProofs2 LearnProofs3 LearnProofs4 LearnProofs5 LearnProofs6 LearnProofs7.
Import ListNotations.
Set Implicit Arguments.
Local Open Scope R_scope.

(** ** C102: semi-gradients *)
(** For any network with predictions [pred] and their gradients [J], any target function and any target parameters - those of q itself
    included -, the gradient that an update uses is minus the mean of clipped weight times TD error times gradient of the prediction:
    nothing flows through the target. *)
Theorem C102_semi_gradient_mse : forall (St : Type) D (net : list R -> qfun St R) target th targ b G pred J g,
  (1 <= length G)%nat -> target th targ (fb_t b) = Ok G -> length (fb_W b) = length G ->
  (forall p, length p = length th -> eval1 D (net p) (fb_S b) (fb_A b) = Ok (pred p) /\ length (pred p) = length G) ->
  (forall i, (i < length G)%nat -> gradient (fun p => nth i (pred p) 0) th (J i)) ->
  gradient (fun p => loss_value (q_loss D net target mse th targ b p)) th g ->
  length g = length th /\ forall k, (k < length th)%nat ->
  nth k g 0 = - (total (map (fun i => Rmax (1/10) (Rmin (nth i (fb_W b) 0) 10) * (nth i G 0 - nth i (pred th) 0) * nth k (J i) 0) (seq 0 (length G))) / INR (length G)).
Proof.
  intros St D net target th targ b G pred J g HB HT HW HP HJ HG. split; [exact (proj1 HG)|]. intros k Hk. rewrite (@semi_gradient_eq mse1 (fun y h => h - y) mse_deriv St D net target th targ b G th pred J HB HT HW HP HJ g HG).
  rewrite (@nth_map_any _ _ _ (seq 0 (length th)) k 0 0%nat) by (now rewrite seq_length). rewrite seq_nth by auto. cbn [Nat.add]. unfold semi. unfold Rdiv. rewrite <- Ropp_mult_distr_l_reverse. f_equal. match goal with |- _ = - ?t => replace (- t) with (-1 * t) by ring end. rewrite <- total_scal. apply total_ext. intros i Hi. apply in_seq in Hi. rewrite clip_w_nth by lia. rewrite wclip. change (1 / 10) with (1 * / 10). ring.
Qed.
Print Assumptions C102_semi_gradient_mse.
Theorem C102_semi_gradient_huber : forall delta (St : Type) D (net : list R -> qfun St R) target th targ b G pred J g, 0 < delta ->
  (1 <= length G)%nat -> target th targ (fb_t b) = Ok G -> length (fb_W b) = length G ->
  (forall p, length p = length th -> eval1 D (net p) (fb_S b) (fb_A b) = Ok (pred p) /\ length (pred p) = length G) ->
  (forall i, (i < length G)%nat -> gradient (fun p => nth i (pred p) 0) th (J i)) ->
  gradient (fun p => loss_value (q_loss D net target (huber delta) th targ b p)) th g ->
  length g = length th /\ forall k, (k < length th)%nat ->
  nth k g 0 = - (total (map (fun i => Rmax (1/10) (Rmin (nth i (fb_W b) 0) 10) * Rmax (- delta) (Rmin (nth i G 0 - nth i (pred th) 0) delta) * nth k (J i) 0) (seq 0 (length G))) / INR (length G)).
Proof.
  intros d St D net target th targ b G pred J g Hd HB HT HW HP HJ HG. split; [exact (proj1 HG)|]. intros k Hk. rewrite (@semi_gradient_eq (huber1 d) (fun y h => clip (h - y) (- d) d) (fun y h => @huber_deriv d y h Hd) St D net target th targ b G th pred J HB HT HW HP HJ g HG).
  rewrite (@nth_map_any _ _ _ (seq 0 (length th)) k 0 0%nat) by (now rewrite seq_length). rewrite seq_nth by auto. cbn [Nat.add]. unfold semi. unfold Rdiv. rewrite <- Ropp_mult_distr_l_reverse. f_equal. match goal with |- _ = - ?t => replace (- t) with (-1 * t) by ring end. rewrite <- total_scal. apply total_ext. intros i Hi. apply in_seq in Hi. rewrite clip_w_nth by lia. rewrite wclip. change (1 / 10) with (1 * / 10).
  assert (X : clip (nth i (pred th) 0 - nth i G 0) (- d) d = - Rmax (- d) (Rmin (nth i G 0 - nth i (pred th) 0) d)) by (unfold clip, Rmax, Rmin; repeat destruct (Rle_dec _ _); lra). rewrite X. ring.
Qed.
Print Assumptions C102_semi_gradient_huber.
(** The gradients exist. *)
Theorem C102_gradient_exists : forall delta (St : Type) D (net : list R -> qfun St R) target th targ b G pred J, 0 < delta ->
  (1 <= length G)%nat -> target th targ (fb_t b) = Ok G -> length (fb_W b) = length G ->
  (forall p, length p = length th -> eval1 D (net p) (fb_S b) (fb_A b) = Ok (pred p) /\ length (pred p) = length G) ->
  (forall i, (i < length G)%nat -> gradient (fun p => nth i (pred p) 0) th (J i)) ->
  (exists g, gradient (fun p => loss_value (q_loss D net target mse th targ b p)) th g) /\ exists g, gradient (fun p => loss_value (q_loss D net target (huber delta) th targ b p)) th g.
Proof.
  intros d St D net target th targ b G pred J Hd HB HT HW HP HJ. split; eexists.
  - exact (@semi_gradient_is mse1 (fun y h => h - y) mse_deriv St D net target th targ b G th pred J HB HT HW HP HJ).
  - exact (@semi_gradient_is (huber1 d) (fun y h => clip (h - y) (- d) d) (fun y h => @huber_deriv d y h Hd) St D net target th targ b G th pred J HB HT HW HP HJ).
Qed.
Print Assumptions C102_gradient_exists.
(** A network q(s, a) = p_0 * a_0 with a bootstrapped target. *)
Definition line (p : list R) : qfun nat R := Type1 (fun _ a => nth 0 p 0 * nth 0 a 0).
Definition line_batch : fbatch nat := mk_fb [0%nat] [[2]] [1] (mk_tb [1] [1/2] [0%nat] [[2]]).
Definition line_target (th0 targ : list R) (b : tbatch nat) : outcome (list R) := sarsa (Some 1%nat) (fun x => x) (fun x => x) (line targ) b.
Lemma line_gradient : forall th, length th = 1%nat -> gradient (fun p => nth 0 [nth 0 p 0 * 2] 0) th [2].
Proof.
  intros [|x [|]] L; try discriminate. split; [reflexivity|]. intros k Hk. assert (k = 0)%nat by (cbn in Hk; lia). subst k. cbn [firstn skipn app nth]. pose proof (derivable_pt_lim_scal (fun t => t) 2 x 1 (derivable_pt_lim_id x)) as D. rewrite Rmult_1_r in D. eapply derivable_pt_lim_ext; [|exact D]. intros t. unfold mult_real_fct. ring.
Qed.
Example C102_semi_ex : line_target [3] [3] (fb_t line_batch) = Ok [1 + 1/2 * (3 * 2)] /\ (forall p, length p = 1%nat -> eval1 (Some 1%nat) (line p) (fb_S line_batch) (fb_A line_batch) = Ok [nth 0 p 0 * 2] /\ length [nth 0 p 0 * 2] = 1%nat) /\ (forall i, (i < 1)%nat -> gradient (fun p => nth i [nth 0 p 0 * 2] 0) [3] [2]).
Proof. split; [reflexivity|]. split; [intros p _; split; reflexivity|]. intros i Hi. replace i with 0%nat by lia. now apply line_gradient. Qed.
(** The gradient with q_targ = q is not the gradient of the loss as a function of the parameters in both places. *)
Theorem C102_not_residual : exists g g', g <> g' /\
  gradient (fun p => loss_value (q_loss (Some 1%nat) line line_target mse [3] [3] line_batch p)) [3] g /\
  gradient (fun p => loss_value (q_loss (Some 1%nat) line line_target mse p p line_batch p)) [3] g'.
Proof.
  exists [2 * (6 - 4)], [1 * (6 - 4)]. split; [intros E; injection E; lra|]. split.
  - split; [reflexivity|]. intros k Hk. assert (k = 0)%nat by (cbn in Hk; lia). subst k. cbn [firstn skipn app nth]. apply quad_deriv with (K := 2); [lra|]. intros h. unfold q_loss, line_target, line_batch, sarsa, eval1, function_type1, line, td_loss. cbn. unfold clip, mse1, Rsqr. replace (Rmin (Rmax 1 (1 / 10)) 10) with 1 by (unfold Rmin, Rmax; repeat destruct (Rle_dec _ _); lra).
    match goal with |- Rabs ?e <= _ => replace e with (2 * (h * h)) by field end. rewrite Rabs_right by nra. nra.
  - split; [reflexivity|]. intros k Hk. assert (k = 0)%nat by (cbn in Hk; lia). subst k. cbn [firstn skipn app nth]. apply quad_deriv with (K := 2); [lra|]. intros h. unfold q_loss, line_target, line_batch, sarsa, eval1, function_type1, line, td_loss. cbn. unfold clip, mse1, Rsqr. replace (Rmin (Rmax 1 (1 / 10)) 10) with 1 by (unfold Rmin, Rmax; repeat destruct (Rle_dec _ _); lra).
    match goal with |- Rabs ?e <= _ => replace e with (1/2 * (h * h)) by field end. rewrite Rabs_right by nra. nra.
Qed.
Print Assumptions C102_not_residual.

(** What one update does to a table: only the entries of the pairs in the batch change, each by lr times the mean over the batch of
    clipped weight times TD error (clipped by delta with the Huber loss); the target network stays as it is. *)
Theorem C102_table_update : forall nS nA net target loss f grads sub lr y th targ rows b G, (1 <= nA)%nat -> (net = table1 nS \/ net = table2 nS nA) ->
  (loss = mse /\ f = (fun e => e)) \/ (exists delta, 0 < delta /\ loss = huber delta /\ f = (fun e => Rmax (- delta) (Rmin e delta))) ->
  sgd_learner lr sub y -> q_params y = Node [0%nat] [Node [0%nat] [Leaf th]] -> targ_params y = Node [0%nat] [Node [0%nat] [Leaf targ]] -> length th = (nS * nA)%nat ->
  rows <> [] -> fb_S b = map fst rows -> fb_A b = map (fun r => one_hot nA (snd r)) rows -> length (fb_W b) = length rows -> (forall s a, In (s, a) rows -> (s < nS)%nat /\ (a < nA)%nat) ->
  target th targ (fb_t b) = Ok G -> length G = length rows -> gradient (fun p => loss_value (q_loss (Some nA) net target loss th targ b p)) th (grads th targ b) ->
  exists y' th', ystep nA net target loss grads sub y (YUpdate b) = (y', Ok tt) /\ y_targ y' = y_targ y /\ q_params y' = Node [0%nat] [Node [0%nat] [Leaf th']] /\ length th' = (nS * nA)%nat /\
  forall s a, (s < nS)%nat -> (a < nA)%nat -> exists old new,
    q_call_a (Some nA) (one_hot nA) (fun x => x) (net th) s a = Ok old /\ q_call_a (Some nA) (one_hot nA) (fun x => x) (net th') s a = Ok new /\
    (~ In (s, a) rows -> new = old) /\
    new = old + lr * (total (map (fun i => if same_pair (nth i rows (0, 0)%nat) (s, a) then Rmax (1/10) (Rmin (nth i (fb_W b) 0) 10) * f (nth i G 0 - old) else 0) (seq 0 (length rows))) / INR (length rows)).
Proof.
  intros nS nA net target loss f grads sub lr y th targ rows b G HA TB LF SG Q P L NE HS HAc HW HR HT HG GD. pose proof (table_tabular TB) as T.
  assert (X : exists l l', loss = zip_loss l /\ (forall y h, derivable_pt_lim (l y) h (l' y h)) /\ forall g o, l' g o = - f (g - o)).
  { destruct LF as [[-> ->]|(d & Hd & -> & ->)].
    - exists mse1, (fun y h => h - y). split; [reflexivity|]. split; [exact mse_deriv|]. intros; lra.
    - exists (huber1 d), (fun y h => clip (h - y) (- d) d). split; [reflexivity|]. split; [intros; now apply huber_deriv|]. intros g o. unfold clip, Rmax, Rmin; repeat destruct (Rle_dec _ _); lra. }
  destruct X as (l & l' & EL & Dl & El'). rewrite EL in GD.
  destruct (@ystep_update nA net target loss grads sub lr y b th targ SG Q P) as (y' & Y1 & Y2 & Y3 & Y4); [exact (proj1 GD)|rewrite EL; exact (@loss_ok nS nA net T l target rows b th targ G th HS HAc HW HG NE HR HT L)|].
  exists y'. eexists. split; [exact Y1|]. split; [exact Y3|]. split; [exact Y4|]. split; [now rewrite map_length, seq_length|]. intros s a Hs Ha. exists (tq nA th s a). eexists.
  split; [now apply (tab_call T)|]. split; [apply (tab_call T); auto; now rewrite map_length, seq_length|]. assert (XX := index_lt Hs Ha).
  assert (V : tq nA (map (fun i => nth i th 0 - lr * nth i (grads th targ b) 0) (seq 0 (length th))) s a = tq nA th s a + lr * (total (map (fun i => if same_pair (nth i rows (0, 0)%nat) (s, a) then Rmax (1/10) (Rmin (nth i (fb_W b) 0) 10) * f (nth i G 0 - tq nA th s a) else 0) (seq 0 (length rows))) / INR (length rows))).
  { unfold tq at 1. rewrite (@nth_map_any _ _ _ (seq 0 (length th)) _ 0 0%nat) by (rewrite seq_length; lia). rewrite seq_nth by lia. cbn [Nat.add]. fold (tq nA th s a). fold (tq nA (grads th targ b) s a). rewrite (@table_gradient_cell nS nA HA net T l l' Dl target rows b th targ G th HS HAc HW HG NE HR HT L _ s a GD Hs Ha). unfold cell_grad.
    unfold Rminus. f_equal. rewrite Ropp_mult_distr_r. f_equal. unfold Rdiv. rewrite <- Ropp_mult_distr_l_reverse. f_equal. match goal with |- - ?t = _ => replace (- t) with (-1 * t) by ring end. rewrite <- total_scal. apply total_ext. intros i Hi. apply in_seq in Hi. destruct (same_pair _ _); [|lra]. rewrite clip_w_nth by lia. rewrite wclip, El'. change (1 / 10) with (1 * / 10). unfold Rminus. ring. }
  split; [|exact V]. intros NI. rewrite V. rewrite (@total_ext _ _ (fun _ => 0)).
  - rewrite total_const, Rmult_0_r. unfold Rdiv. rewrite Rmult_0_l, Rmult_0_r. lra.
  - intros i Hi. apply in_seq in Hi. destruct (same_pair (nth i rows (0, 0)%nat) (s, a)) eqn:SP; auto. apply same_pair_spec in SP. exfalso. apply NI. rewrite <- SP. apply nth_In. lia.
Qed.
Print Assumptions C102_table_update.

(** A small environment: two states, two actions. *)
Definition small (s a : nat) : nat * R * bool :=
  match s, a with 0%nat, 0%nat => (0%nat, 0, false) | 0%nat, _ => (1%nat, 1, false) | _, 0%nat => (1%nat, 5, true) | _, _ => (0%nat, 0, false) end.
Definition all_rows : list (nat * nat) := [(0, 0); (0, 1); (1, 0); (1, 1)]%nat.
Definition full_batch : fbatch nat := mk_fb [0; 0; 1; 1]%nat (map (fun r => one_hot 2 (snd r)) all_rows) [1; 1; 1; 1] (mk_tb [0; 1; 5; 0] [1/2; 1/2; 0; 1/2] [0; 1; 1; 0]%nat (repeat (one_hot 2 0) 4)).
Definition small_y (targ : option func) : sys := mkSys (mkLearner KTD (mkFunc 0 (wrap [0; 0; 0; 0]) (Node [] []) 0) (sgd (1/2)) (Node [] [])) targ.
Definition small_grads := analytic 2 2 (fun y h => h - y) (target_q 2 (table1 2)).
Lemma full_genuine : genuine 2 2 small (1/2) all_rows full_batch.
Proof.
  split; [discriminate|]. split; [reflexivity|]. split; [reflexivity|]. do 4 (split; [reflexivity|]). intros i s a s' H1 H2.
  destruct i as [|[|[|[|i]]]]; cbn in H1, H2; try discriminate; try (injection H1 as <- <-; injection H2 as <-; cbn; repeat split; try lia; try lra; try reflexivity). destruct i; discriminate.
Qed.
Lemma small_differentiates : differentiates 2 2 small (1/2) (table1 2) (target_q 2 (table1 2)) mse small_grads.
Proof. apply (@analytic_differentiates 2 2 ltac:(lia) (fun y h => h - y) (target_q 2 (table1 2)) (table1 2) mse1 small (1/2) (by_max 2)); [apply table1_tabular|exact mse_deriv|apply target_q_sound; [lia|apply table1_tabular]]. Qed.
Example C102_update_ex : sgd_learner (1/2) Nat.eqb (small_y None) /\ q_params (small_y None) = Node [0%nat] [Node [0%nat] [Leaf [0; 0; 0; 0]]] /\ target_q 2 (table1 2) [0; 0; 0; 0] [0; 0; 0; 0] (fb_t full_batch) <> Err EKey /\
  gradient (fun p => loss_value (q_loss (Some 2%nat) (table1 2) (target_q 2 (table1 2)) mse [0; 0; 0; 0] [0; 0; 0; 0] full_batch p)) [0; 0; 0; 0] (small_grads [0; 0; 0; 0] [0; 0; 0; 0] full_batch).
Proof.
  split; [split; [reflexivity|exact I]|]. split; [reflexivity|]. split; [|exact (@small_differentiates [0; 0; 0; 0] [0; 0; 0; 0] all_rows full_batch eq_refl eq_refl full_genuine)].
  assert (S : sound_target 2 2 (target_q 2 (table1 2)) (by_max 2)) by (apply target_q_sound; [lia|apply table1_tabular]). destruct (S [0; 0; 0; 0] [0; 0; 0; 0] (fb_t full_batch) eq_refl) as (G & E & _); [split; reflexivity| |rewrite E; discriminate]. cbn. intros s H. intuition lia.
Qed.

(** ** C103: tables converge *)
(** For any finite deterministic environment and any program of updates on genuine transitions and synchronisations, the distance to
    the solution q of the Bellman equation never grows, and no operation raises. *)
Theorem C103_never_worse : forall nS nA dyn gamma net target val loss grads sub lr wl cl D B q y os, setting nS nA dyn gamma net target val loss grads lr wl cl D B -> bellman nS nA dyn gamma val q ->
  sgd_learner lr sub y -> within nS nA net (q_params y) q D -> within nS nA net (targ_params y) q D ->
  (forall o, In o os -> op_ok nS nA dyn gamma lr wl B o) -> (y_targ y = None -> forall o, In o os -> exists b, o = YUpdate b) ->
  exists y', yrun nA net target loss grads sub y os = (y', Ok tt) /\ within nS nA net (q_params y') q D /\ within nS nA net (targ_params y') q D.
Proof.
  intros nS nA dyn gamma net target val loss grads sub lr wl cl D B q y os (HA & CL & Hg & TB & AL & PL & GR & Hlr & Hwl & Hlw & HB & HD) BE SG W1 W2 OK NS. pose proof (table_tabular TB) as T. destruct (algorithm_ok HA T AL) as [ST NX].
  destruct (@never_worse nS nA HA net T dyn CL gamma Hg target val ST NX loss grads sub D cl lr wl B PL GR Hlr Hwl q BE os y D) as (y' & R & G & _); auto; [lra|now apply (@good_within _ _ _ _ _ _ _ _ T)|].
  exists y'. split; auto. apply (@good_within _ _ _ _ _ _ _ _ T) in G. tauto.
Qed.
Print Assumptions C103_never_worse.
(** Each round in which every pair is updated multiplies the distance by at most 1 - tau0 * (lr * wl * cl / B) * (1 - gamma). *)
Theorem C103_rate : forall nS nA dyn gamma net target val loss grads sub lr wl cl D B q y tau0 rounds, setting nS nA dyn gamma net target val loss grads lr wl cl D B -> bellman nS nA dyn gamma val q ->
  sgd_learner lr sub y -> within nS nA net (q_params y) q D -> within nS nA net (targ_params y) q D -> 0 < tau0 <= 1 ->
  (forall os, In os rounds -> one_round nS nA dyn gamma lr wl tau0 B y os) ->
  let D' := (1 - tau0 * (lr * wl * cl / INR B * (1 - gamma))) ^ length rounds * D in
  exists y', yrun nA net target loss grads sub y (concat rounds) = (y', Ok tt) /\ within nS nA net (q_params y') q D' /\ within nS nA net (targ_params y') q D'.
Proof.
  intros nS nA dyn gamma net target val loss grads sub lr wl cl D B q y tau0 rounds SET BE SG W1 W2 Ht RD D'. pose proof (beta_le SET) as [_ Hb]. destruct SET as (HA & CL & Hg & TB & AL & PL & GR & Hlr & Hwl & Hlw & HB & HD). pose proof (table_tabular TB) as T. destruct (algorithm_ok HA T AL) as [ST NX].
  destruct (@rounds_good nS nA HA net T dyn CL gamma Hg target val ST NX loss grads sub D cl lr wl B PL GR Hlr Hwl q BE tau0 Ht Hb rounds y D) as (y' & R & G & _); auto; [lra|now apply (@good_within _ _ _ _ _ _ _ _ T)|].
  exists y'. split; auto. apply (@good_within _ _ _ _ _ _ _ _ T) in G. destruct G as (_ & G). exact G.
Qed.
Print Assumptions C103_rate.
(** Hence the values converge to q. *)
Theorem C103_converges : forall nS nA dyn gamma net target val loss grads sub lr wl cl D B q y tau0 eps, setting nS nA dyn gamma net target val loss grads lr wl cl D B -> gamma < 1 -> bellman nS nA dyn gamma val q ->
  sgd_learner lr sub y -> within nS nA net (q_params y) q D -> within nS nA net (targ_params y) q D -> 0 < tau0 <= 1 -> 0 < eps ->
  exists N, forall rounds, (forall os, In os rounds -> one_round nS nA dyn gamma lr wl tau0 B y os) -> (N <= length rounds)%nat ->
  exists y', yrun nA net target loss grads sub y (concat rounds) = (y', Ok tt) /\ within nS nA net (q_params y') q eps.
Proof.
  intros nS nA dyn gamma net target val loss grads sub lr wl cl D B q y tau0 eps SET Hg1 BE SG W1 W2 Ht He. pose proof (beta_le SET) as Hb. unfold beta in Hb. pose proof SET as (HA & CL & Hg & TB & AL & PL & GR & Hlr & Hwl & Hlw & HB & HD).
  set (r := 1 - tau0 * (lr * wl * cl / INR B * (1 - gamma))).
  assert (Hr : 0 <= r < 1). { unfold r. assert (0 < lr * wl * cl / INR B * (1 - gamma) <= 1) by (split; [apply Rmult_lt_0_compat; lra|]; rewrite <- (Rmult_1_r 1); apply Rmult_le_compat; lra). assert (0 < tau0 * (lr * wl * cl / INR B * (1 - gamma)) <= 1) by (split; [apply Rmult_lt_0_compat; lra|]; rewrite <- (Rmult_1_r 1); apply Rmult_le_compat; lra). lra. }
  destruct (@pow_small r D eps Hr HD He) as [N HN]. exists N. intros rounds RD LN. destruct (@C103_rate nS nA dyn gamma net target val loss grads sub lr wl cl D B q y tau0 rounds SET BE SG W1 W2 Ht RD) as (y' & R & W & _). exists y'. split; auto.
  destruct W as (th & E & L & H). exists th. split; auto. split; auto. intros s a Hs Ha. destruct (H s a Hs Ha) as (x & X1 & X2). exists x. split; auto. eapply Rle_trans; [exact X2|]. apply HN. exact LN.
Qed.
Print Assumptions C103_converges.
(** The Bellman equation has exactly one solution, for each of the algorithms. *)
Theorem C103_bellman_solution : forall nS nA dyn gamma net target val, (1 <= nA)%nat -> closed nS nA dyn -> 0 <= gamma < 1 -> (net = table1 nS \/ net = table2 nS nA) -> algorithm nA net target val ->
  exists q, bellman nS nA dyn gamma val q /\ forall q', bellman nS nA dyn gamma val q' -> forall s a, (s < nS)%nat -> (a < nA)%nat -> q' s a = q s a.
Proof.
  intros nS nA dyn gamma net target val HA CL Hg TB AL. pose proof (table_tabular TB) as T. destruct (algorithm_ok HA T AL) as [ST NX].
  assert (X : exists v : nat -> (nat -> R) -> R, forall s h, val s h (v s h)).
  { destruct AL as [|pi Hp|t Ht].
    - exists (fun _ h => h (proj1_sig (arg_max h HA))). intros s h. destruct (arg_max h HA) as (a & Ha & M). cbn [proj1_sig]. split; [exists a; auto|auto].
    - exists (fun s h => expectation nA (boltzmann nA (pi s)) h). reflexivity.
    - exists (fun _ h => soft_maximum nA t h). reflexivity. }
  destruct X as [v HV]. exists (fix_q CL Hg NX v HV). split; [apply fix_bellman|]. intros q' B' s a Hs Ha. eapply bellman_unique; eauto. apply fix_bellman.
Qed.
Print Assumptions C103_bellman_solution.
(** With the maximum, it is the largest discounted return. *)
Theorem C103_optimal : forall nS nA dyn gamma q, (1 <= nA)%nat -> closed nS nA dyn -> 0 <= gamma < 1 -> bellman nS nA dyn gamma (by_max nA) q -> optimal nS nA dyn gamma q.
Proof. intros nS nA dyn gamma q HA CL Hg BE. now apply bellman_optimal. Qed.
Print Assumptions C103_optimal.
(** Q-learning finds the optimal values, whatever the initial table. *)
Theorem C103_q_learning : forall nS nA dyn gamma net, (1 <= nA)%nat -> closed nS nA dyn -> 0 <= gamma < 1 -> (net = table1 nS \/ net = table2 nS nA) ->
  exists q, optimal nS nA dyn gamma q /\
  forall grads sub lr wl B y tau0 th targ, differentiates nS nA dyn gamma net (target_q nA net) mse grads -> 0 < lr -> 0 < wl -> lr * wl <= 1 -> (1 <= B)%nat -> 0 < tau0 <= 1 -> sgd_learner lr sub y ->
  q_params y = Node [0%nat] [Node [0%nat] [Leaf th]] -> targ_params y = Node [0%nat] [Node [0%nat] [Leaf targ]] -> length th = (nS * nA)%nat -> length targ = (nS * nA)%nat ->
  forall eps, 0 < eps -> exists N, forall rounds, (forall os, In os rounds -> one_round nS nA dyn gamma lr wl tau0 B y os) -> (N <= length rounds)%nat ->
  exists y', yrun nA net (target_q nA net) mse grads sub y (concat rounds) = (y', Ok tt) /\ within nS nA net (q_params y') q eps.
Proof.
  intros nS nA dyn gamma net HA CL Hg TB. destruct (@C103_bellman_solution nS nA dyn gamma net (target_q nA net) (by_max nA) HA CL Hg TB (alg_q nA net)) as (q & BE & _). exists q. split; [now apply C103_optimal|].
  intros grads sub lr wl B y tau0 th targ GR Hlr Hwl Hlw HB Ht SG Q P L Lt eps He. pose proof (table_tabular TB) as T.
  set (D := bound nS nA (fun s a => tq nA th s a - q s a) + bound nS nA (fun s a => tq nA targ s a - q s a)). assert (P1 := @bound_pos nS nA (fun s a => tq nA th s a - q s a)). assert (P2 := @bound_pos nS nA (fun s a => tq nA targ s a - q s a)).
  apply (@C103_converges nS nA dyn gamma net (target_q nA net) (by_max nA) mse grads sub lr wl 1 D B q y tau0 eps); auto; try lra.
  - repeat (split; auto; try lra). + constructor. + now left. + unfold D. lra.
  - apply (within_err _ _ _ T). exists th. split; auto. split; auto. intros s a Hs Ha. eapply Rle_trans; [exact (@bound_ok nS nA (fun s a => tq nA th s a - q s a) s a Hs Ha)|]. unfold D. lra.
  - apply (within_err _ _ _ T). exists targ. split; auto. split; auto. intros s a Hs Ha. eapply Rle_trans; [exact (@bound_ok nS nA (fun s a => tq nA targ s a - q s a) s a Hs Ha)|]. unfold D. lra.
Qed.
Print Assumptions C103_q_learning.
Lemma small_closed : closed 2 2 small.
Proof. intros [|s] [|a] Hs Ha; cbn; lia. Qed.
Lemma full_ok : op_ok 2 2 small (1/2) (1/2) 1 4 (YUpdate full_batch).
Proof. exists all_rows. split; [exact full_genuine|]. split; [|cbn; lia]. intros w Hw. assert (w = 1) by (cbn in Hw; intuition congruence). subst w. rewrite <- wclip, clip_in by lra. lra. Qed.
Lemma full_covers : covers 2 2 [YUpdate full_batch].
Proof. intros s a Hs Ha. exists (YUpdate full_batch). split; [now left|]. exists (s * 2 + a)%nat. destruct s as [|[|s]]; [| |lia]; (destruct a as [|[|a]]; [| |lia]); split; reflexivity. Qed.
Definition small_targ : func := mkFunc 0 (wrap [0; 0; 0; 0]) (Node [] []) 0.
(** The hypotheses are met, without and with a target network. *)
Example C103_ex : forall D, 0 <= D ->
  setting 2 2 small (1/2) (table1 2) (target_q 2 (table1 2)) (by_max 2) mse small_grads (1/2) 1 1 D 4 /\ (exists q, bellman 2 2 small (1/2) (by_max 2) q /\ exists D, within 2 2 (table1 2) (q_params (small_y None)) q D) /\
  sgd_learner (1/2) Nat.eqb (small_y None) /\ one_round 2 2 small (1/2) (1/2) 1 1 4 (small_y None) [YUpdate full_batch] /\
  sgd_learner (1/2) Nat.eqb (small_y (Some small_targ)) /\ one_round 2 2 small (1/2) (1/2) 1 (1/10) 4 (small_y (Some small_targ)) [YUpdate full_batch; YSync (1/10)].
Proof.
  intros D HD. split.
  { split; [lia|]. split; [exact small_closed|]. split; [lra|]. split; [now left|]. split; [constructor|]. split; [left; auto|]. split; [exact small_differentiates|]. split; [lra|]. split; [lra|]. split; [lra|]. split; [lia|lra]. }
  split.
  { destruct (@C103_bellman_solution 2 2 small (1/2) (table1 2) (target_q 2 (table1 2)) (by_max 2)) as (q & BE & _); [lia|exact small_closed|lra|now left|constructor|]. exists q. split; auto. exists (bound 2 2 (fun s a => tq 2 [0; 0; 0; 0] s a - q s a)). apply (within_err _ _ _ (@table1_tabular 2 2)). exists [0; 0; 0; 0]. split; [reflexivity|]. split; [reflexivity|]. intros s a Hs Ha. exact (@bound_ok 2 2 (fun s a => tq 2 [0; 0; 0; 0] s a - q s a) s a Hs Ha). }
  split; [split; [reflexivity|exact I]|]. split.
  { split; [intros o [<-|[]]; exact full_ok|]. cbn. split; [exact full_covers|]. intros o [<-|[]]. eauto. }
  split; [split; [reflexivity|split; reflexivity]|]. split; [intros o [<-|[<-|[]]]; [exact full_ok|cbn; lra]|]. cbn. exists [YUpdate full_batch], (1/10), []. split; [reflexivity|]. split; [exact full_covers|lra].
Qed.

(** The networks of the examples have a bias.  Then an update can move values away from q: the values of two states, both with distance
    1; after one update on a genuine transition with learning rate 1/2 the distance is 3/2. *)
Definition bias_net (p : list R) : qfun nat R := table1b 2 p.
Definition bias_dyn (s a : nat) : nat * R * bool := (s, match s with 0%nat => 1 | _ => 0 end, true).
Definition bias_batch : fbatch nat := mk_fb [0%nat] [one_hot 1 0] [1] (mk_tb [1] [0] [0%nat] [one_hot 1 0]).
Definition bias_q (s a : nat) : R := match s with 0%nat => 1 | _ => 0 end.
Definition bias_y : sys := mkSys (mkLearner KTD (mkFunc 0 (wrap [0; 0; 1]) (Node [] []) 0) (sgd (1/2)) (Node [] [])) None.
Lemma bias_eval : forall x b w0 w1, (x = 0 \/ x = 1)%nat -> nth 0 (linear 1 [w0; w1] (kron (one_hot 2 x) (one_hot 1 0))) 0 + b = (match x with 0%nat => w0 | _ => w1 end) + b.
Proof. intros x b w0 w1 [->| ->]; unfold linear, kron, one_hot, dot; cbn; lra. Qed.
Theorem C103_bias_refuted : exists dyn q y b y' grads,
  genuine 2 1 dyn (1/2) [(0, 0)%nat] b /\ weights_fit (1/2) 1 b /\ bellman 2 1 dyn (1/2) (by_max 1) q /\ sgd_learner (1/2) Nat.eqb y /\
  gradient (fun p => loss_value (q_loss (Some 1%nat) bias_net (target_q 1 bias_net) mse [0; 0; 1] [0; 0; 1] b p)) [0; 0; 1] (grads [0; 0; 1] [0; 0; 1] b) /\
  q_params y = Node [0%nat] [Node [0%nat] [Leaf [0; 0; 1]]] /\
  (forall s, (s < 2)%nat -> exists x, q_call_a (Some 1%nat) (one_hot 1) (fun x => x) (bias_net [0; 0; 1]) s 0%nat = Ok x /\ Rabs (x - q s 0%nat) <= 1) /\
  ystep 1 bias_net (target_q 1 bias_net) mse grads Nat.eqb y (YUpdate b) = (y', Ok tt) /\
  exists th x, q_params y' = Node [0%nat] [Node [0%nat] [Leaf th]] /\ q_call_a (Some 1%nat) (one_hot 1) (fun x => x) (bias_net th) 1%nat 0%nat = Ok x /\ Rabs (x - q 1%nat 0%nat) = 3/2.
Proof.
  assert (TQ : target_q 1 bias_net [0; 0; 1] [0; 0; 1] (fb_t bias_batch) = Ok [1]).
  { unfold target_q. rewrite (@q_learning_eval nat 1) by (try exact I; lia). cbn [fb_t bias_batch tb_Snext tb_Rn tb_In map bootstrap]. cbn. do 2 f_equal. ring. }
  assert (HP : forall p, length p = 3%nat -> eval1 (Some 1%nat) (bias_net p) [0%nat] [one_hot 1 0] = Ok [nth 1 p 0 + nth 0 p 0] /\ length [nth 1 p 0 + nth 0 p 0] = 1%nat).
  { intros [|b0 [|w0 [|w1 [|]]]] L; try discriminate. split; [|reflexivity]. unfold eval1, function_type1, bias_net, table1b. cbn [vmap2 bind]. rewrite bias_eval by auto. reflexivity. }
  assert (HJ : gradient (fun p => nth 0 [nth 1 p 0 + nth 0 p 0] 0) [0; 0; 1] [1; 1; 0]).
  { split; [reflexivity|]. intros k Hk. destruct k as [|[|[|k]]]; [| | |cbn in Hk; lia]; cbn [firstn skipn app nth].
    - apply (derivable_pt_lim_ext (fun t => t)); [intros; lra|apply derivable_pt_lim_id].
    - apply (derivable_pt_lim_ext (fun t => t)); [intros; lra|apply derivable_pt_lim_id].
    - apply (derivable_pt_lim_ext (fun t => 0)); [intros; lra|apply derivable_pt_lim_const]. }
  pose proof (@semi_gradient_is mse1 (fun y h => h - y) mse_deriv nat (Some 1%nat) bias_net (target_q 1 bias_net) [0; 0; 1] [0; 0; 1] bias_batch [1] [0; 0; 1] (fun p => [nth 1 p 0 + nth 0 p 0]) (fun _ => [1; 1; 0]) ltac:(cbn; lia) TQ eq_refl) as SGI.
  assert (SGI' := SGI HP (fun i Hi => eq_ind 0%nat (fun i => gradient (fun p => nth i [nth 1 p 0 + nth 0 p 0] 0) [0; 0; 1] [1; 1; 0]) HJ i ltac:(cbn in Hi; lia))). clear SGI.
  set (g := map _ _) in SGI'. assert (Eg : g = [-1; -1; 0]). { unfold g, semi. cbn. unfold clip. replace (Rmin (Rmax 1 (1 / 10)) 10) with 1 by (unfold Rmin, Rmax; repeat destruct (Rle_dec _ _); lra). f_equal; [field|f_equal; [field|f_equal; field]]. }
  rewrite Eg in SGI'. clear g Eg.
  destruct (@ystep_update 1 bias_net (target_q 1 bias_net) mse (fun _ _ _ => [-1; -1; 0]) Nat.eqb (1/2) bias_y bias_batch [0; 0; 1] [0; 0; 1]) as (y' & Y1 & Y2 & Y3 & Y4); [split; [reflexivity|exact I]|reflexivity|reflexivity|reflexivity| |].
  { unfold q_loss. destruct (HP [0; 0; 1] eq_refl) as [E _]. change (fb_S bias_batch) with [0%nat]. change (fb_A bias_batch) with [one_hot 1 0]. rewrite E. cbn [bind]. rewrite TQ. cbn [bind]. unfold td_loss, mse. rewrite minus_zeros. rewrite zip_loss_some; [eauto|reflexivity|reflexivity|discriminate]. }
  exists bias_dyn, bias_q, bias_y, bias_batch, y', (fun _ _ _ => [-1; -1; 0]). split.
  { split; [discriminate|]. do 6 (split; [reflexivity|]). intros i s a s' H1 H2. destruct i as [|i]; [|destruct i; discriminate]. cbn in H1, H2. injection H1 as <- <-. injection H2 as <-. cbn. repeat split; lia. }
  split; [intros w [<-|[]]; rewrite <- wclip, clip_in by lra; lra|].
  split; [intros s a Hs Ha; exists (bias_q s 0); split; [split; [exists 0%nat; split; [lia|reflexivity]|intros c Hc; replace c with 0%nat by lia; cbn; lra]|cbn; unfold bias_q, reward, bias_dyn; cbn; destruct s; lra]|].
  split; [split; [reflexivity|exact I]|]. split; [exact SGI'|]. split; [reflexivity|].
  assert (QC : forall s b w0 w1, (s < 2)%nat -> q_call_a (Some 1%nat) (one_hot 1) (fun x => x) (bias_net [b; w0; w1]) s 0%nat = Ok ((match s with 0%nat => w0 | _ => w1 end) + b)).
  { intros s b w0 w1 Hs. unfold q_call_a, function_type1, bias_net, table1b. cbn [vmap2 bind]. rewrite bias_eval by lia. reflexivity. }
  split.
  { intros s Hs. rewrite QC by auto. eexists. split; [reflexivity|]. unfold bias_q. destruct s; unfold Rabs; destruct (Rcase_abs _); lra. }
  split; [exact Y1|]. eexists. eexists. split; [exact Y4|]. cbn [length seq map nth]. rewrite QC by lia. split; [reflexivity|]. unfold bias_q. unfold Rabs; destruct (Rcase_abs _); lra.
Qed.
Print Assumptions C103_bias_refuted.

(** ** C104: the training loop *)
(** The loop of the examples, tracer NStep(n=1) included, over any number of complete episodes: each group of episodes in which every
    pair occurs brings the values closer to the solution of the Bellman equation by the factor 1 - lr * cl * (1 - gamma). *)
Theorem C104_loop_rate : forall nS nA dyn gamma net target val loss grads sub lr cl D q y groups, setting nS nA dyn gamma net target val loss grads lr 1 cl D 1 -> bellman nS nA dyn gamma val q ->
  sgd_learner lr sub y -> y_targ y = None -> within nS nA net (q_params y) q D -> (forall es, In es groups -> explores nS nA dyn es) ->
  exists y' t', loop nA net target loss grads sub 1 gamma y (nstep_reset nat nat) (concat (map (@concat _) groups)) = (y', t', Ok tt) /\
  within nS nA net (q_params y') q ((1 - lr * cl * (1 - gamma)) ^ length groups * D).
Proof.
  intros nS nA dyn gamma net target val loss grads sub lr cl D q y groups SET BE SG YT W EX. pose proof SET as (HA & CL & Hg & TB & AL & PL & GR & Hlr & Hwl & Hlw & HB & HD).
  assert (R : forall os, In os (map (fun es => concat (map (ops nA gamma) es)) groups) -> one_round nS nA dyn gamma lr 1 1 1 y os).
  { intros os I. apply in_map_iff in I. destruct I as (es & <- & I). destruct (EX es I) as [PLY COV]. assert (OO : forall o, In o (concat (map (ops nA gamma) es)) -> op_ok nS nA dyn gamma lr 1 1 o /\ exists b, o = YUpdate b).
    { intros o Io. apply in_concat in Io. destruct Io as (x & Ix & Io). apply in_map_iff in Ix. destruct Ix as (cs & <- & Ics). apply (@ops_ok nS nA dyn CL gamma lr cs); auto; lra. }
    split; [intros o Io; now apply OO|]. rewrite YT. split; [|intros o Io; now apply OO]. intros s a Hs Ha. destruct (COV s a Hs Ha) as (cs & c & I1 & I2 & <- & <-). destruct (@ops_ok nS nA dyn CL gamma lr cs ltac:(lra) (PLY cs I1)) as [_ V]. destruct (V c I2) as (o & O1 & O2). exists o. split; auto. apply in_concat. exists (ops nA gamma cs). split; auto. now apply in_map. }
  assert (W2 : within nS nA net (targ_params y) q D) by (unfold targ_params; now rewrite YT).
  destruct (@C103_rate nS nA dyn gamma net target val loss grads sub lr 1 cl D 1 q y 1 _ SET BE SG W W2 ltac:(lra) R) as (y' & RR & W' & _). rewrite map_length in W'.
  assert (E : concat (map (fun es => concat (map (ops nA gamma) es)) groups) = concat (map (ops nA gamma) (concat groups))).
  { clear. induction groups as [|es gs IH]; auto. cbn [map concat]. rewrite map_app, concat_app, IH. reflexivity. }
  rewrite E in RR.
  destruct (@plays_loops nS nA net dyn gamma Hg target loss grads sub (concat groups)) with (y := y) (y' := y') (t := nstep_reset nat nat) (rest := @nil (call nat nat)) as (t' & _ & LP); auto.
  - intros cs I. apply in_concat in I. destruct I as (es & I1 & I2). now apply (EX es I1).
  - split; reflexivity.
  - exists y', t'. split.
    + rewrite app_nil_r in LP. assert (EE : concat (map (@concat (call nat nat)) groups) = concat (concat groups)). { clear. induction groups as [|es gs IH]; auto. cbn [map concat]. rewrite concat_app, IH. reflexivity. } rewrite EE, LP. reflexivity.
    + replace (1 - lr * cl * (1 - gamma)) with (1 - 1 * (lr * 1 * cl / INR 1 * (1 - gamma))) by (cbn; field). exact W'.
Qed.
Print Assumptions C104_loop_rate.
(** The loop of doc/examples/frozen_lake/qlearning.py learns the optimal values, from any initial table. *)
Theorem C104_q_learning_optimal : forall nS nA dyn gamma net, (1 <= nA)%nat -> closed nS nA dyn -> 0 <= gamma < 1 -> (net = table1 nS \/ net = table2 nS nA) ->
  exists q, optimal nS nA dyn gamma q /\
  forall grads sub lr y th, differentiates nS nA dyn gamma net (target_q nA net) mse grads -> 0 < lr <= 1 -> sgd_learner lr sub y -> y_targ y = None ->
  q_params y = Node [0%nat] [Node [0%nat] [Leaf th]] -> length th = (nS * nA)%nat ->
  forall eps, 0 < eps -> exists N, forall groups, (forall es, In es groups -> explores nS nA dyn es) -> (N <= length groups)%nat ->
  exists y' t', loop nA net (target_q nA net) mse grads sub 1 gamma y (nstep_reset nat nat) (concat (map (@concat _) groups)) = (y', t', Ok tt) /\ within nS nA net (q_params y') q eps.
Proof.
  intros nS nA dyn gamma net HA CL Hg TB. destruct (@C103_bellman_solution nS nA dyn gamma net (target_q nA net) (by_max nA) HA CL Hg TB (alg_q nA net)) as (q & BE & _). exists q. split; [now apply C103_optimal|].
  intros grads sub lr y th GR Hlr SG YT Q L eps He. pose proof (table_tabular TB) as T. set (D := bound nS nA (fun s a => tq nA th s a - q s a)). assert (P1 : 0 <= D) by apply bound_pos.
  assert (Hr : 0 <= 1 - lr * 1 * (1 - gamma) < 1). { assert (0 < lr * (1 - gamma) <= 1) by (split; [apply Rmult_lt_0_compat; lra|]; rewrite <- (Rmult_1_r 1); apply Rmult_le_compat; lra). lra. }
  destruct (@pow_small _ D eps Hr P1 He) as [N HN]. exists N. intros groups EX LN.
  destruct (@C104_loop_rate nS nA dyn gamma net (target_q nA net) (by_max nA) mse grads sub lr 1 D q y groups) as (y' & t' & E & W); auto.
  - repeat (split; auto; try lra). + constructor. + now left.
  - apply (within_err _ _ _ T). exists th. split; auto. split; auto. intros s a Hs Ha. exact (@bound_ok nS nA (fun s a => tq nA th s a - q s a) s a Hs Ha).
  - exists y', t'. split; auto. destruct W as (th' & E' & L' & H). exists th'. split; auto. split; auto. intros s a Hs Ha. destruct (H s a Hs Ha) as (x & X1 & X2). exists x. split; auto. eapply Rle_trans; [exact X2|]. apply HN. exact LN.
Qed.
Print Assumptions C104_q_learning_optimal.
Example C104_ex : explores 2 2 small [[mkCall 0%nat 0%nat 0 false 0; mkCall 0%nat 1%nat 1 false (-1); mkCall 1%nat 1%nat 0 false 0; mkCall 0%nat 1%nat 1 false 0; mkCall 1%nat 0%nat 5 true 0]].
Proof.
  split.
  - intros cs [<-|[]]. cbn. repeat (split; [try lia; try lra; reflexivity|]). repeat split; try lia; try lra.
  - intros s a Hs Ha. eexists. exists (mkCall s a (reward small s a) (ends small s a) (match s, a with 0%nat, 1%nat => -1 | _, _ => 0 end)). split; [now left|]. split; [|split; reflexivity]. destruct s as [|[|s]]; [| |lia]; (destruct a as [|[|a]]; [| |lia]); cbn; auto 8.
Qed.

(** The loop passes "done or truncated" to the tracer.  When an episode is cut off by a time limit, the value of its last state is taken
    to be 0: here the table is exact at first (value 2), and after any positive number of episodes the distance is 1. *)
Definition cut_dyn (s a : nat) : nat * R * bool := (0%nat, 1, false).
Definition cut_call : call nat nat := mkCall 0%nat 0%nat 1 true 0.
Definition cut_grads (th targ : list R) (b : fbatch nat) : list R := [nth 0 th 0 - 1].
Definition cut_y (x : R) (key : nat) : sys := mkSys (mkLearner KTD (mkFunc 0 (wrap [x]) (Node [] []) key) (sgd 1) (Node [] [])) None.
Lemma cut_target : forall th targ, length targ = 1%nat -> target_q 1 (table1 1) th targ (fb_t (batch_of 1 [trans (1/2) cut_call None])) = Ok [1].
Proof.
  intros th [|x [|]] L; try discriminate. unfold target_q. rewrite (@q_learning_eval nat 1) by (try exact I; lia). cbn [fb_t batch_of tb_Snext tb_Rn tb_In map bootstrap trans cut_call x_rn x_in x_s_next c_r c_s]. cbn. do 2 f_equal. ring.
Qed.
Lemma cut_gradient : forall th targ, length th = 1%nat -> length targ = 1%nat -> gradient (fun p => loss_value (q_loss (Some 1%nat) (table1 1) (target_q 1 (table1 1)) mse th targ (batch_of 1 [trans (1/2) cut_call None]) p)) th (cut_grads th targ (batch_of 1 [trans (1/2) cut_call None])).
Proof.
  intros th targ L Lt. pose proof (@table_gradient 1 1 ltac:(lia) (table1 1) (@table1_tabular 1 1) mse1 (fun y h => h - y) mse_deriv (target_q 1 (table1 1)) [(0, 0)%nat] (batch_of 1 [trans (1/2) cut_call None]) th targ [1] th eq_refl eq_refl eq_refl eq_refl ltac:(discriminate) ltac:(intros s a [E|[]]; injection E as <- <-; lia) (@cut_target th targ Lt) L) as G.
  eapply eq_ind; [exact G|]. rewrite L. unfold cut_grads, tq. cbn. unfold clip. replace (Rmin (Rmax 1 (1 / 10)) 10) with 1 by (unfold Rmin, Rmax; repeat destruct (Rle_dec _ _); lra). f_equal. field.
Qed.
Lemma cut_loop : forall k y t th, sgd_learner 1 Nat.eqb y -> y_targ y = None -> q_params y = wrap th -> length th = 1%nat -> empty t ->
  exists y' t', loop 1 (table1 1) (target_q 1 (table1 1)) mse cut_grads Nat.eqb 1 (1/2) y t (repeat cut_call (S k)) = (y', t', Ok tt) /\ q_params y' = wrap [1].
Proof.
  induction k as [|k IH]; intros y t th SG YT Q L Et; destruct t as [ts tr td]; destruct Et as [E1 E2]; cbn in E1, E2; subst ts tr.
  - assert (P : targ_params y = wrap th) by (unfold targ_params; now rewrite YT).
    destruct (@ystep_update 1 (table1 1) (target_q 1 (table1 1)) mse cut_grads Nat.eqb 1 y (batch_of 1 [trans (1/2) cut_call None]) th th SG Q P) as (y' & Y1 & Y2 & Y3 & Y4); [now rewrite L|exact (@loss_ok 1 1 (table1 1) (@table1_tabular 1 1) mse1 (target_q 1 (table1 1)) [(0, 0)%nat] (batch_of 1 [trans (1/2) cut_call None]) th th [1] th eq_refl eq_refl eq_refl eq_refl ltac:(discriminate) ltac:(intros s a [E|[]]; injection E as <- <-; lia) (@cut_target th th L) L)|].
    exists y', (mkN [] [] true). split.
    + cbn [repeat LearnModel.loop]. unfold loop_step, nstep_add. cbn [n_done n_s n_r nstep_len length Nat.eqb negb andb]. rewrite andb_false_r. cbn [app]. fold (stp cut_call). cbn [nstep_len length n_s drain]. unfold nstep_bool. cbn [n_s nstep_len length Nat.eqb negb andb n_done orb cut_call c_done]. fold cut_call. rewrite (@pop_last (1/2) ltac:(lra) cut_call) by (cbn; lra). rewrite Y1. reflexivity.
    + rewrite Y4. f_equal. rewrite L. cbn. f_equal. lra.
  - assert (P : targ_params y = wrap th) by (unfold targ_params; now rewrite YT).
    destruct (@ystep_update 1 (table1 1) (target_q 1 (table1 1)) mse cut_grads Nat.eqb 1 y (batch_of 1 [trans (1/2) cut_call None]) th th SG Q P) as (y' & Y1 & Y2 & Y3 & Y4); [now rewrite L|exact (@loss_ok 1 1 (table1 1) (@table1_tabular 1 1) mse1 (target_q 1 (table1 1)) [(0, 0)%nat] (batch_of 1 [trans (1/2) cut_call None]) th th [1] th eq_refl eq_refl eq_refl eq_refl ltac:(discriminate) ltac:(intros s a [E|[]]; injection E as <- <-; lia) (@cut_target th th L) L)|].
    destruct (IH y' (mkN [] [] true) (map (fun i => nth i th 0 - 1 * nth i (cut_grads th th (batch_of 1 [trans (1/2) cut_call None])) 0) (seq 0 (length th)))) as (y2 & t2 & L2 & Q2); auto; [congruence|now rewrite map_length, seq_length|split; reflexivity|]. exists y2, t2. split; auto.
    change (repeat cut_call (S (S k))) with (cut_call :: repeat cut_call (S k)). cbn [LearnModel.loop]. unfold loop_step, nstep_add. cbn [n_done n_s n_r nstep_len length Nat.eqb negb andb]. rewrite andb_false_r. cbn [app]. fold (stp cut_call). cbn [nstep_len length n_s drain]. unfold nstep_bool. cbn [n_s nstep_len length Nat.eqb negb andb n_done orb cut_call c_done]. fold cut_call. rewrite (@pop_last (1/2) ltac:(lra) cut_call) by (cbn; lra). rewrite Y1. exact L2.
Qed.
Theorem C104_truncation_refuted : exists dyn q y th c grads, optimal 1 1 dyn (1/2) q /\ sgd_learner 1 Nat.eqb y /\ y_targ y = None /\ q_params y = Node [0%nat] [Node [0%nat] [Leaf th]] /\
  within 1 1 (table1 1) (q_params y) q 0 /\ c_s c = 0%nat /\ c_a c = 0%nat /\ c_r c = reward dyn 0 0 /\ ends dyn 0 0 = false /\ c_done c = true /\
  (forall th targ, length th = 1%nat -> length targ = 1%nat -> gradient (fun p => loss_value (q_loss (Some 1%nat) (table1 1) (target_q 1 (table1 1)) mse th targ (batch_of 1 [trans (1/2) c None]) p)) th (grads th targ (batch_of 1 [trans (1/2) c None]))) /\
  forall k, exists y' t' th', loop 1 (table1 1) (target_q 1 (table1 1)) mse grads Nat.eqb 1 (1/2) y (nstep_reset nat nat) (repeat c (S k)) = (y', t', Ok tt) /\
    q_params y' = Node [0%nat] [Node [0%nat] [Leaf th']] /\ exists x, q_call_a (Some 1%nat) (one_hot 1) (fun x => x) (table1 1 th') 0%nat 0%nat = Ok x /\ Rabs (x - q 0%nat 0%nat) = 1.
Proof.
  assert (CLO : closed 1 1 cut_dyn) by (intros s a _ _; cbn; lia).
  exists cut_dyn, (fun _ _ => 2), (cut_y 2 0), [2], cut_call, cut_grads. split.
  { apply C103_optimal; [lia|exact CLO|lra|]. intros s a Hs Ha. exists 2. split; [split; [exists 0%nat; split; [lia|reflexivity]|intros; lra]|]. unfold reward, ends, cut_dyn. cbn. lra. }
  split; [split; [reflexivity|exact I]|]. split; [reflexivity|]. split; [reflexivity|]. split.
  { apply (within_err _ _ _ (@table1_tabular 1 1)). exists [2]. split; [reflexivity|]. split; [reflexivity|]. intros s a Hs Ha. replace s with 0%nat by lia. replace a with 0%nat by lia. unfold tq. cbn. unfold Rabs. destruct (Rcase_abs _); lra. }
  do 5 (split; [reflexivity|]). split; [exact cut_gradient|]. intros k. destruct (@cut_loop k (cut_y 2 0) (nstep_reset nat nat) [2]) as (y' & t' & L & Q); [split; [reflexivity|exact I]|reflexivity|reflexivity|reflexivity|split; reflexivity|].
  exists y', t', [1]. split; [exact L|]. split; [exact Q|]. exists (tq 1 [1] 0 0). split; [apply (tab_call (@table1_tabular 1 1)); auto|]. unfold tq. cbn. unfold Rabs. destruct (Rcase_abs _); lra.
Qed.
Print Assumptions C104_truncation_refuted.
