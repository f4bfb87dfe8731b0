(** C130: training with the default optimizer, optax.adam(1e-3).  Specifications in AdamSpec.v. *)
From Coq Require Import List Lia Bool Arith Reals Lra Psatz.
From Verif Require Import PyCommon CommonProofs UtilsModel UtilsSpec UtilsProofs2 UtilsProofs3 DistModel DistSpec DistProofs LossModel LossSpec LossProofs QModel QProofs TDModel TDSpec TDProofs CoreModel CoreSpec CoreProofs CoreProofs2 LearnModel LearnSpec LearnProofs LearnProofs2 LearnProofs3 LearnProofs6 LearnProofs7 LearnProps TDProofs3 AdamModel AdamSpec AdamProofs AdamProofs2 AdamProofs3.
Import ListNotations.
Set Implicit Arguments.
Local Open Scope R_scope.

(** ** Exact updates *)
(** For any network, any loss and any earlier updates: an update without nan succeeds, installs the new function state, and moves every
    number of the parameters by -lr times the faded average of its gradients, divided by eps plus the root of the faded average of their
    squares. *)
Theorem C130_update : forall lr b1 b2 eps k f gs l (M : Type) gam g fs (m : M), 0 < b1 < 1 -> 0 < b2 < 1 -> trained (learner_of k f (Some (adam lr b1 b2 eps))) gs l ->
  gam (f_params (l_func l)) (f_state (l_func l)) (f_key (l_func l)) = Ok (g, fs, m) -> ~ nan_somewhere g -> shape g = shape (f_params (l_func l)) -> bare fs = bare (f_state (l_func l)) ->
  exists l', update gam l = (l', Ok m) /\ trained (learner_of k f (Some (adam lr b1 b2 eps))) (gs ++ [g]) l' /\ f_state (l_func l') = fs /\ shape (f_params (l_func l')) = shape (f_params f) /\
  forall path i x, entry (f_params (l_func l)) path i = Some x ->
    entry (f_params (l_func l')) path i = Some (x - lr * (faded b1 (history (gs ++ [g]) path i) / (sqrt (faded b2 (map (fun v => v ^ 2) (history (gs ++ [g]) path i))) + eps))).
Proof.
  intros lr b1 b2 eps k f gs l M gam g fs m H1 H2 T E NN SG BF. destruct (@trained_inv lr b1 b2 eps H1 H2 k f gs l T) as (I & _ & S). destruct (@update_adam lr b1 b2 eps H1 H2 M gs l gam g fs m I E NN SG BF) as (l' & U & _ & _ & _ & FS & SS & V).
  exists l'. split; [exact U|]. split; [exact (@trained_update _ M gs l gam g fs m l' T E SG U)|]. split; [exact FS|]. split; [congruence|]. exact V.
Qed.
Print Assumptions C130_update.
(** Without an optimizer: learning rate 1/1000, decays 9/10 and 999/1000, epsilon 10^-8. *)
Theorem C130_default : forall k f gs l (M : Type) gam g fs (m : M), trained (learner_of k f None) gs l ->
  gam (f_params (l_func l)) (f_state (l_func l)) (f_key (l_func l)) = Ok (g, fs, m) -> ~ nan_somewhere g -> shape g = shape (f_params (l_func l)) -> bare fs = bare (f_state (l_func l)) ->
  exists l', update gam l = (l', Ok m) /\ trained (learner_of k f None) (gs ++ [g]) l' /\ f_state (l_func l') = fs /\
  forall path i x, entry (f_params (l_func l)) path i = Some x ->
    entry (f_params (l_func l')) path i = Some (x - 1/1000 * (faded (9/10) (history (gs ++ [g]) path i) / (sqrt (faded (999/1000) (map (fun v => v ^ 2) (history (gs ++ [g]) path i))) + 1/100000000))).
Proof.
  intros k f gs l M gam g fs m T E NN SG BF. destruct (@C130_update (1/1000) (9/10) (999/1000) (1/100000000) k f gs l M gam g fs m ltac:(lra) ltac:(lra) T E NN SG BF) as (l' & U & T' & FS & _ & V).
  exists l'. repeat split; auto.
Qed.
Print Assumptions C130_default.
Definition two : func := mkFunc 0 (Node [7]%nat [Leaf [1; 2]]) (Node [] []) 0.
Definition ggrad (u v : R) : gtree := Node [7]%nat [Leaf [Some u; Some v]].
Lemma ggrad_nan : forall u v, ~ nan_somewhere (ggrad u v).
Proof. intros u v (path & x & A & B). assert (I : In x (leaves (ggrad u v))) by (apply in_leaves; eauto). cbn in I. destruct I as [<-|[]]. cbn in B. intuition discriminate. Qed.
(** Two updates, with the gradients (3, 1) and (4, 0). *)
Example C130_update_ex : exists l1 l2, update (fun _ s _ => Ok (ggrad 3 1, s, tt)) (learner_of KTD two None) = (l1, Ok tt) /\ update (fun _ s _ => Ok (ggrad 4 0, s, tt)) l1 = (l2, Ok tt) /\
  trained (learner_of KTD two None) [ggrad 3 1; ggrad 4 0] l2 /\ entry (f_params (l_func l1)) [0%nat] 0 = Some (1 - 1/1000 * (faded (9/10) [3] / (sqrt (faded (999/1000) [3 ^ 2]) + 1 / 100000000))) /\ faded (9/10) [3; 4] = (9/10 * 3 + 4) / (9/10 + 1).
Proof.
  destruct (@C130_update (1/1000) (9/10) (999/1000) (1/100000000) KTD two [] (learner_of KTD two None) unit (fun _ s _ => Ok (ggrad 3 1, s, tt)) (ggrad 3 1) (Node [] []) tt) as (l1 & U1 & T1 & F1 & S1 & V1); try lra; try reflexivity; [apply trained_new|apply ggrad_nan|].
  destruct (@C130_update (1/1000) (9/10) (999/1000) (1/100000000) KTD two [ggrad 3 1] l1 unit (fun _ s _ => Ok (ggrad 4 0, s, tt)) (ggrad 4 0) (Node [] []) tt) as (l2 & U2 & T2 & _); try lra; auto; [now rewrite F1|apply ggrad_nan|rewrite F1; reflexivity|].
  exists l1, l2. split; [exact U1|]. split; [exact U2|]. split; [exact T2|]. split; [now apply V1|]. unfold faded. cbn. field.
Qed.

Example C130_default_ex : exists l1, update (fun _ s _ => Ok (ggrad 3 1, s, tt)) (learner_of KModel two None) = (l1, Ok tt) /\ trained (learner_of KModel two None) [ggrad 3 1] l1.
Proof.
  destruct (@C130_default KModel two [] (learner_of KModel two None) unit (fun _ s _ => Ok (ggrad 3 1, s, tt)) (ggrad 3 1) (Node [] []) tt) as (l1 & U1 & T1 & _); try reflexivity; [apply trained_new|apply ggrad_nan|]. now exists l1.
Qed.

(** ** The size of updates *)
(** However large the gradients (rewards, TD errors, importance weights): no number of the parameters moves by more than
    lr * sqrt((1 - b1) / (1 - b2)) per update, and so by not more than n times that in n updates. *)
Theorem C130_step : forall lr b1 b2 eps k f gs l path i x, 0 < lr -> 0 < b1 <= b2 -> b2 < 1 -> 0 < eps -> trained (learner_of k f (Some (adam lr b1 b2 eps))) gs l -> entry (f_params f) path i = Some x ->
  exists x', entry (f_params (l_func l)) path i = Some x' /\ Rabs (x' - x) <= INR (length gs) * (lr * sqrt ((1 - b1) / (1 - b2))).
Proof.
  intros lr b1 b2 eps k f gs l path i x Hlr H1 H2 He T X. remember (learner_of k f (Some (adam lr b1 b2 eps))) as l0 eqn:EL. induction T as [|M gs l gam g fs m l' T IH E SG U].
  - subst l0. exists x. split; [exact X|]. rewrite Rminus_diag_eq by auto. rewrite Rabs_R0. cbn. lra.
  - destruct IH as (x1 & X1 & B1). rewrite EL in T. destruct (@trained_inv lr b1 b2 eps ltac:(lra) ltac:(lra) k f gs l T) as (I & _ & _). destruct (@update_adam_inv lr b1 b2 eps ltac:(lra) ltac:(lra) M gs l gam g fs m l' I E SG U) as (_ & _ & _ & V).
    eexists. split; [exact (V path i x1 X1)|]. rewrite app_length. cbn [length]. rewrite Nat.add_1_r, S_INR. pose proof (@astep_bound b1 b2 eps (history (gs ++ [g]) path i) ltac:(lra) H2 He) as AB.
    replace (x1 - lr * astep b1 b2 eps (history (gs ++ [g]) path i) - x) with ((x1 - x) + - (lr * astep b1 b2 eps (history (gs ++ [g]) path i))) by ring. eapply Rle_trans; [apply Rabs_triang|]. rewrite Rabs_Ropp, Rabs_mult, (Rabs_pos_eq lr) by lra. assert (lr * Rabs (astep b1 b2 eps (history (gs ++ [g]) path i)) <= lr * sqrt ((1 - b1) / (1 - b2))) by (apply Rmult_le_compat_l; lra). lra.
Qed.
Print Assumptions C130_step.
Lemma default_sqrt : sqrt ((1 - 9/10) / (1 - 999/1000)) = 10.
Proof. replace ((1 - 9/10) / (1 - 999/1000)) with (Rsqr 10) by (unfold Rsqr; field). apply sqrt_Rsqr. lra. Qed.
(** With the default optimizer: at most 1/100 per update.  A value that has to come 1 away from where it started needs 100 updates. *)
Theorem C130_drift : forall k f gs l path i x, trained (learner_of k f None) gs l -> entry (f_params f) path i = Some x ->
  exists x', entry (f_params (l_func l)) path i = Some x' /\ Rabs (x' - x) <= INR (length gs) / 100.
Proof.
  intros k f gs l path i x T X. destruct (@C130_step (1/1000) (9/10) (999/1000) (1/100000000) k f gs l path i x) as (x' & X' & B); try lra; auto. exists x'. split; auto. rewrite default_sqrt in B. lra.
Qed.
Print Assumptions C130_drift.
Example C130_drift_ex : exists l x', trained (learner_of KPolicy two None) [ggrad 1000 1] l /\ entry (f_params (l_func l)) [0%nat] 0 = Some x' /\ Rabs (x' - 1) <= 1 / 100.
Proof.
  destruct (@C130_update (1/1000) (9/10) (999/1000) (1/100000000) KPolicy two [] (learner_of KPolicy two None) unit (fun _ s _ => Ok (ggrad 1000 1, s, tt)) (ggrad 1000 1) (Node [] []) tt) as (l1 & _ & T1 & _); try lra; try reflexivity; [apply trained_new|apply ggrad_nan|].
  destruct (@C130_drift KPolicy two [ggrad 1000 1] l1 [0%nat] 0%nat 1 T1 eq_refl) as (x' & X & B). exists l1, x'. split; [exact T1|]. split; [exact X|]. cbn in B. lra.
Qed.
(** The first update: every number moves by lr * |g| / (|g| + eps) against its gradient.  Multiplying the loss (or the importance weight)
    by a constant makes no difference worth mentioning. *)
Theorem C130_first : forall lr b1 b2 eps k f (M : Type) gam g fs (m : M) l' path i x, 0 < b1 < 1 -> 0 < b2 < 1 -> 0 < eps ->
  gam (f_params f) (f_state f) (f_key f) = Ok (g, fs, m) -> shape g = shape (f_params f) -> update gam (learner_of k f (Some (adam lr b1 b2 eps))) = (l', Ok m) -> entry (f_params f) path i = Some x ->
  entry (f_params (l_func l')) path i = Some (x - lr * (gradient_of g path i / (Rabs (gradient_of g path i) + eps))).
Proof.
  intros lr b1 b2 eps k f M gam g fs m l' path i x H1 H2 He E SG U X. destruct (@update_adam_inv lr b1 b2 eps H1 H2 M [] (new_learner k f (adam lr b1 b2 eps)) gam g fs m l' (@inv_new lr b1 b2 eps k f) E SG U) as (_ & _ & _ & V).
  rewrite (V path i x X). cbn [app history map]. now rewrite astep_one.
Qed.
Print Assumptions C130_first.
Example C130_first_ex : exists l' l'', update (fun _ s _ => Ok (ggrad 3 1, s, tt)) (learner_of KTD two None) = (l', Ok tt) /\ entry (f_params (l_func l')) [0%nat] 0 = Some (1 - 1/1000 * (3 / (3 + 1/100000000))) /\
  update (fun _ s _ => Ok (ggrad 300 1, s, tt)) (learner_of KTD two None) = (l'', Ok tt) /\ entry (f_params (l_func l'')) [0%nat] 0 = Some (1 - 1/1000 * (300 / (300 + 1/100000000))).
Proof.
  destruct (@C130_update (1/1000) (9/10) (999/1000) (1/100000000) KTD two [] (learner_of KTD two None) unit (fun _ s _ => Ok (ggrad 3 1, s, tt)) (ggrad 3 1) (Node [] []) tt) as (l1 & U1 & _); try lra; try reflexivity; [apply trained_new|apply ggrad_nan|].
  destruct (@C130_update (1/1000) (9/10) (999/1000) (1/100000000) KTD two [] (learner_of KTD two None) unit (fun _ s _ => Ok (ggrad 300 1, s, tt)) (ggrad 300 1) (Node [] []) tt) as (l2 & U2 & _); try lra; try reflexivity; [apply trained_new|apply ggrad_nan|].
  exists l1, l2. split; [exact U1|]. split; [|split; [exact U2|]].
  - rewrite (@C130_first (1/1000) (9/10) (999/1000) (1/100000000) KTD two unit (fun _ s _ => Ok (ggrad 3 1, s, tt)) (ggrad 3 1) (Node [] []) tt l1 [0%nat] 0 1); try lra; try reflexivity; auto. cbn. now rewrite Rabs_pos_eq by lra.
  - rewrite (@C130_first (1/1000) (9/10) (999/1000) (1/100000000) KTD two unit (fun _ s _ => Ok (ggrad 300 1, s, tt)) (ggrad 300 1) (Node [] []) tt l2 [0%nat] 0 1); try lra; try reflexivity; auto. cbn. now rewrite Rabs_pos_eq by lra.
Qed.

(** ** Values move without being trained *)
(** A number that has had one gradient g0 and none since moves on, against g0, in every further update, whatever that update is about.
    (A number that has never had a gradient stays.) *)
Theorem C130_unvisited : forall lr b1 b2 eps k f g0 gs l (M : Type) gam g fs (m : M) l' path i, 0 < lr -> 0 < b1 < 1 -> 0 < b2 < 1 -> 0 < eps ->
  trained (learner_of k f (Some (adam lr b1 b2 eps))) (g0 :: gs) l -> gam (f_params (l_func l)) (f_state (l_func l)) (f_key (l_func l)) = Ok (g, fs, m) -> shape g = shape (f_params (l_func l)) -> update gam l = (l', Ok m) ->
  (forall h, In h (gs ++ [g]) -> gradient_of h path i = 0) ->
  forall x, entry (f_params (l_func l)) path i = Some x -> exists x', entry (f_params (l_func l')) path i = Some x' /\ (gradient_of g0 path i = 0 -> x' = x) /\ (0 < gradient_of g0 path i -> x' < x) /\ (gradient_of g0 path i < 0 -> x < x').
Proof.
  intros lr b1 b2 eps k f g0 gs l M gam g fs m l' path i Hlr H1 H2 He T E SG U Z x X. destruct (@trained_inv lr b1 b2 eps H1 H2 k f _ l T) as (I & _). destruct (@update_adam_inv lr b1 b2 eps H1 H2 M _ l gam g fs m l' I E SG U) as (_ & _ & _ & V).
  eexists. split; [exact (V path i x X)|]. cbn [app history map]. fold (history (gs ++ [g]) path i). assert (Z' : forall v, In v (history (gs ++ [g]) path i) -> v = 0) by (intros v Iv; unfold history in Iv; apply in_map_iff in Iv; destruct Iv as (h & <- & Ih); now apply Z).
  destruct (@astep_tail b1 b2 eps (gradient_of g0 path i) _ ltac:(lra) ltac:(lra) He Z') as (c & Hc & ->). split; [intros ->; ring|]. assert (P : 0 < lr * c) by now apply Rmult_lt_0_compat. split; intros Hg; nra.
Qed.
Print Assumptions C130_unvisited.
Example C130_unvisited_ex : exists l1 l2 x1 x2, update (fun _ s _ => Ok (ggrad 3 1, s, tt)) (learner_of KTD two None) = (l1, Ok tt) /\ update (fun _ s _ => Ok (ggrad 4 0, s, tt)) l1 = (l2, Ok tt) /\ entry (f_params (l_func l1)) [0%nat] 1 = Some x1 /\ entry (f_params (l_func l2)) [0%nat] 1 = Some x2 /\ x2 < x1.
Proof.
  destruct (@C130_update (1/1000) (9/10) (999/1000) (1/100000000) KTD two [] (learner_of KTD two None) unit (fun _ s _ => Ok (ggrad 3 1, s, tt)) (ggrad 3 1) (Node [] []) tt) as (l1 & U1 & T1 & F1 & S1 & V1); try lra; try reflexivity; [apply trained_new|apply ggrad_nan|].
  destruct (@C130_update (1/1000) (9/10) (999/1000) (1/100000000) KTD two [ggrad 3 1] l1 unit (fun _ s _ => Ok (ggrad 4 0, s, tt)) (ggrad 4 0) (Node [] []) tt) as (l2 & U2 & T2 & _); try lra; auto; [now rewrite F1|apply ggrad_nan|rewrite F1; reflexivity|].
  pose proof (V1 [0%nat] 1%nat 2 eq_refl) as X1.
  destruct (fun A B C D => @C130_unvisited (1/1000) (9/10) (999/1000) (1/100000000) KTD two (ggrad 3 1) [] l1 unit (fun _ s _ => Ok (ggrad 4 0, s, tt)) (ggrad 4 0) (Node [] []) tt l2 [0%nat] 1%nat A B C D T1) with (x := 2 - 1/1000 * (faded (9/10) (history ([] ++ [ggrad 3 1]) [0%nat] 1) / (sqrt (faded (999/1000) (map (fun v => v ^ 2) (history ([] ++ [ggrad 3 1]) [0%nat] 1))) + 1/100000000))) as (x2 & X2 & _ & L & _); try lra; auto; try (now rewrite F1).
  - cbn. intros h [<-|[]]. reflexivity.
  - exists l1, l2. eexists. exists x2. split; [exact U1|]. split; [exact U2|]. split; [exact X1|]. split; [exact X2|]. apply L. cbn. lra.
Qed.

(** ** Values near their targets *)
(** The first update takes a number that is already close to its target further away: with a gradient proportional to the distance (squared
    loss, kap = clipped weight / batch size), whenever the distance is less than lr / 2 - eps / kap. *)
Theorem C130_overshoot : forall lr b1 b2 eps kap k f (M : Type) gam g fs (m : M) l' path i x y, 0 < lr -> 0 < b1 < 1 -> 0 < b2 < 1 -> 0 < eps -> 0 < kap ->
  gam (f_params f) (f_state f) (f_key f) = Ok (g, fs, m) -> shape g = shape (f_params f) -> update gam (learner_of k f (Some (adam lr b1 b2 eps))) = (l', Ok m) -> entry (f_params f) path i = Some x ->
  gradient_of g path i = kap * (x - y) -> 0 < Rabs (x - y) < lr / 2 - eps / kap -> exists x', entry (f_params (l_func l')) path i = Some x' /\ Rabs (x - y) < Rabs (x' - y).
Proof.
  intros lr b1 b2 eps kap k f M gam g fs m l' path i x y Hlr H1 H2 He Hk E SG U X GE HD. eexists. split; [exact (@C130_first lr b1 b2 eps k f M gam g fs m l' path i x H1 H2 He E SG U X)|]. rewrite GE. rewrite Rabs_mult, (Rabs_pos_eq kap) by lra. set (e := x - y) in *.
  replace (x - lr * (kap * e / (kap * Rabs e + eps)) - y) with (e * (1 - lr * kap / (kap * Rabs e + eps))) by (unfold e; field; assert (0 < kap * Rabs (x - y)) by (apply Rmult_lt_0_compat; tauto); lra).
  assert (P : 0 < kap * Rabs e) by (apply Rmult_lt_0_compat; tauto). assert (Q : 2 < lr * kap / (kap * Rabs e + eps)).
  { apply Rmult_lt_reg_r with (kap * Rabs e + eps); [lra|]. unfold Rdiv at 1. rewrite Rmult_assoc, Rinv_l by lra. assert (kap * Rabs e < kap * (lr / 2 - eps / kap)) by (apply Rmult_lt_compat_l; tauto). replace (kap * (lr / 2 - eps / kap)) with (lr * kap / 2 - eps) in H by (field; lra). lra. }
  rewrite Rabs_mult, (Rabs_left (1 - _)) by lra. rewrite <- (Rmult_1_r (Rabs e)) at 1. apply Rmult_lt_compat_l; [tauto|lra].
Qed.
Print Assumptions C130_overshoot.
(** One millionth away from the target before, about a thousandth after the update. *)
Example C130_overshoot_ex : exists l' x', update (fun _ s _ => Ok (ggrad (1/1000000) 1, s, tt)) (learner_of KTD two None) = (l', Ok tt) /\ entry (f_params (l_func l')) [0%nat] 0 = Some x' /\ Rabs (1 - (1 - 1/1000000)) < Rabs (x' - (1 - 1/1000000)).
Proof.
  destruct (@C130_update (1/1000) (9/10) (999/1000) (1/100000000) KTD two [] (learner_of KTD two None) unit (fun _ s _ => Ok (ggrad (1/1000000) 1, s, tt)) (ggrad (1/1000000) 1) (Node [] []) tt) as (l1 & U1 & _); try lra; try reflexivity; [apply trained_new|apply ggrad_nan|].
  destruct (@C130_overshoot (1/1000) (9/10) (999/1000) (1/100000000) 1 KTD two unit (fun _ s _ => Ok (ggrad (1/1000000) 1, s, tt)) (ggrad (1/1000000) 1) (Node [] []) tt l1 [0%nat] 0%nat 1 (1 - 1/1000000)) as (x' & X & B); try lra; try reflexivity; auto.
  - cbn. lra.
  - rewrite Rabs_pos_eq by lra. lra.
  - exists l1, x'. auto.
Qed.
(** Still, values come back to their targets again and again: for any network, any infinite run of updates in which the gradient of a
    number never pushes it away from y, and at least once in N updates pushes with at least c (when it is further away than the step
    bound), the number is within the step bound of y infinitely often. *)
Theorem C130_returns : forall lr b1 b2 eps k f l g path i x y c L N, 0 < lr -> 0 < b1 <= b2 -> b2 < 1 -> 0 < eps -> keeps_training l g -> l 0%nat = learner_of k f (Some (adam lr b1 b2 eps)) ->
  (forall n, entry (f_params (l_func (l n))) path i = Some (x n)) -> 0 < c -> 0 <= L ->
  (forall n, lr * sqrt ((1 - b1) / (1 - b2)) < x n - y -> 0 <= gradient_of (g n) path i <= L * (x n - y)) ->
  (forall n, x n - y < - (lr * sqrt ((1 - b1) / (1 - b2))) -> L * (x n - y) <= gradient_of (g n) path i <= 0) ->
  (forall n, exists j, (n <= j < n + N)%nat /\ (lr * sqrt ((1 - b1) / (1 - b2)) < x j - y -> c <= gradient_of (g j) path i) /\ (x j - y < - (lr * sqrt ((1 - b1) / (1 - b2))) -> gradient_of (g j) path i <= - c)) ->
  forall T, exists n, (T <= n)%nat /\ Rabs (x n - y) <= lr * sqrt ((1 - b1) / (1 - b2)).
Proof.
  intros lr b1 b2 eps k f l g path i x y c L N Hlr H1 H2 He KT L0 X Hc HL P1 P2 P3. apply (@recurs lr b1 b2 eps Hlr H1 H2 He x (fun n => gradient_of (g n) path i) y c L N); auto.
  - apply (@forever_obeys lr b1 b2 eps ltac:(lra) ltac:(lra) l g k f path i x KT L0 X).
  - split; [exact P1|]. split; [exact P2|exact P3].
Qed.
Print Assumptions C130_returns.
(** One number, trained towards 3 with the default optimizer. *)
Definition to3 (p s : ptree) (_ : nat) : outcome (gtree * ptree * unit) := match p with Leaf [x] => Ok (Leaf [Some (x - 3)], s, tt) | _ => Err EValue end.
Definition start : func := mkFunc 0 (Leaf [0]) (Node [] []) 0.
Fixpoint iter3 (n : nat) : learner := match n with O => learner_of KTD start None | S n' => fst (update to3 (iter3 n')) end.
Definition at3 (n : nat) : R := match f_params (l_func (iter3 n)) with Leaf [x] => x | _ => 0 end.
Lemma iter3_ok : forall n, f_params (l_func (iter3 n)) = Leaf [at3 n] /\ update to3 (iter3 n) = (iter3 (S n), Ok tt).
Proof.
  assert (A : forall n, exists gs, trained (learner_of KTD start None) gs (iter3 n) /\ f_params (l_func (iter3 n)) = Leaf [at3 n] /\ f_state (l_func (iter3 n)) = Node [] [] /\ update to3 (iter3 n) = (iter3 (S n), Ok tt)).
  { assert (STEP : forall n gs, trained (learner_of KTD start None) gs (iter3 n) -> f_params (l_func (iter3 n)) = Leaf [at3 n] -> f_state (l_func (iter3 n)) = Node [] [] ->
      update to3 (iter3 n) = (iter3 (S n), Ok tt) /\ exists gs', trained (learner_of KTD start None) gs' (iter3 (S n)) /\ f_params (l_func (iter3 (S n))) = Leaf [at3 (S n)] /\ f_state (l_func (iter3 (S n))) = Node [] []).
    { intros n gs T P S. destruct (@C130_update (1/1000) (9/10) (999/1000) (1/100000000) KTD start gs (iter3 n) unit to3 (Leaf [Some (at3 n - 3)]) (Node [] []) tt) as (l' & U & T' & F' & S' & _); try lra; auto.
      - unfold to3. rewrite P, S. reflexivity.
      - intros (path & x & X & B). destruct path; [|discriminate]. injection X as <-. cbn in B. intuition discriminate.
      - rewrite P. reflexivity.
      - rewrite S. reflexivity.
      - assert (E : iter3 (Datatypes.S n) = l') by (cbn [iter3]; rewrite U; reflexivity). unfold at3. rewrite E. split; [exact U|]. eexists. split; [exact T'|]. split; [|exact F']. destruct (f_params (l_func l')) as [[|x [|]]|]; try discriminate. reflexivity. }
    induction n as [|n IH].
    - exists []. assert (P0 : f_params (l_func (iter3 0)) = Leaf [at3 0]) by reflexivity. split; [apply trained_new|]. split; [exact P0|]. split; [reflexivity|]. apply (@STEP 0%nat []); [apply trained_new|exact P0|reflexivity].
    - destruct IH as (gs & T & P & S & _). destruct (@STEP n gs T P S) as (_ & gs' & T' & P' & S'). exists gs'. split; auto. split; auto. split; auto. now apply (@STEP (Datatypes.S n) gs'). }
  intros n. destruct (A n) as (gs & _ & P & _ & U). auto.
Qed.
Example C130_returns_ex : forall T, exists n, (T <= n)%nat /\ f_params (l_func (iter3 n)) = Leaf [at3 n] /\ Rabs (at3 n - 3) <= 1 / 100.
Proof.
  intros T. destruct (@C130_returns (1/1000) (9/10) (999/1000) (1/100000000) KTD start iter3 (fun n => Leaf [Some (at3 n - 3)]) [] 0%nat at3 3 (1/100) 1 1) with (T := T) as (n & Hn & A); try lra; rewrite ?default_sqrt; auto.
  - intros n. destruct (iter3_ok n) as [P U]. exists unit, to3, (f_state (l_func (iter3 n))), tt. split; [unfold to3; now rewrite P|]. split; [now rewrite P|exact U].
  - intros n. destruct (iter3_ok n) as [P _]. rewrite P. reflexivity.
  - intros n Hn. cbn. lra.
  - intros n Hn. cbn. lra.
  - intros n. exists n. split; [lia|]. cbn. split; lra.
  - exists n. split; auto. split; [apply iter3_ok|]. rewrite default_sqrt in A. lra.
Qed.
Lemma losses_ok : forall loss, (loss = mse \/ exists delta, 0 < delta /\ loss = huber delta) -> exists l l' cap, loss = zip_loss l /\ 0 < cap /\ (forall y h, derivable_pt_lim (l y) h (l' y h)) /\ forall y, dslope (l' y) y cap.
Proof.
  intros loss [->|(d & Hd & ->)].
  - exists mse1, (fun y h => h - y), 1. split; [reflexivity|]. split; [lra|]. split; [exact mse_deriv|exact dslope_mse].
  - exists (huber1 d), (fun y h => clip (h - y) (- d) d), d. split; [reflexivity|]. split; [lra|]. split; [intros; now apply huber_deriv|intros; now apply dslope_huber].
Qed.
Lemma same_value : forall nS nA net, tabular nS nA net -> forall target val, (1 <= nA)%nat -> algorithm nA net target val -> sound_target nS nA target val -> nonexpansive nA val -> forall targ, length targ = (nS * nA)%nat ->
  forall dyn qt, closed nS nA dyn -> (forall s' c, (s' < nS)%nat -> (c < nA)%nat -> q_call_a (Some nA) (one_hot nA) (fun x => x) (net targ) s' c = Ok (qt s' c)) ->
  forall s a m, (s < nS)%nat -> (a < nA)%nat -> val (next dyn s a) (qt (next dyn s a)) m -> val (next dyn s a) (LearnProofs.tq nA targ (next dyn s a)) m.
Proof.
  intros nS nA net T target val HA AL ST NX targ LT dyn qt CL QT s a m Hs Ha Hm.
  assert (EX : exists m', val (next dyn s a) (LearnProofs.tq nA targ (next dyn s a)) m').
  { destruct AL as [|pi Hp|tt Ht].
    - destruct (@ST targ targ (mk_tb [0] [0] [next dyn s a] [one_hot nA 0]) LT) as (out & _ & _ & BG); [split; reflexivity|cbn; intros z [<-|[]]; now apply CL|]. destruct (BG 0%nat (next dyn s a) eq_refl) as (z & Z & _). exists z. exact Z.
    - eexists. reflexivity.
    - eexists. reflexivity. }
  destruct EX as (m' & Hm'). assert (EM : m = m').
  { assert (E : Rabs (m - m') <= 0). { eapply NX; [|exact Hm|exact Hm']. intros c Hc. cbv beta. specialize (QT (next dyn s a) c (@CL s a Hs Ha) Hc). rewrite (tab_call T) in QT by (auto; now apply CL). injection QT as <-. rewrite Rminus_diag_eq by auto. rewrite Rabs_R0. lra. }
    pose proof (Rabs_pos (m - m')). destruct (Req_dec m m') as [|NE]; auto. pose proof (Rabs_pos_lt (m - m')). lra. }
  now subst m'.
Qed.
(** The same for tables trained by QLearning, ExpectedSarsa or SoftQLearning, with the squared or the Huber loss, on true transitions of a
    finite deterministic environment, any importance weights, and a target network that is not synchronised meanwhile: no update raises,
    and the value of every pair that occurs at least once in N batches is within the step bound of its target infinitely often.  (The
    default optimizer: 1/100.) *)
Theorem C130_tables : forall nS nA dyn gamma net target val loss grads sub lr b1 b2 eps f t th0 targ qt rows b B N s a m,
  table_setting nS nA dyn gamma net target val loss grads lr b1 b2 eps f t th0 targ qt rows b B ->
  (s < nS)%nat -> (a < nA)%nat -> (forall n, exists j, (n <= j < n + N)%nat /\ In (s, a) (rows j)) -> val (next dyn s a) (qt (next dyn s a)) m ->
  exists ys, ys 0%nat = mkSys (learner_of KTD f (Some (adam lr b1 b2 eps))) (Some t) /\ (forall n, ystep nA net target loss grads sub (ys n) (YUpdate (b n)) = (ys (S n), Ok tt)) /\
  forall T, exists n th v, (T <= n)%nat /\ q_params (ys n) = Node [0%nat] [Node [0%nat] [Leaf th]] /\ q_call_a (Some nA) (one_hot nA) (fun x => x) (net th) s a = Ok v /\
    Rabs (v - (reward dyn s a + (if ends dyn s a then 0 else gamma * m))) <= lr * sqrt ((1 - b1) / (1 - b2)).
Proof.
  intros nS nA dyn gamma net target val loss grads sub lr b1 b2 eps f t th0 targ qt rows b B N s a m (HA & CL & TB & AL & LO & GR & Hlr & H1 & H2 & He & F0 & L0 & T0 & LT & GB & QT) Hs Ha VI Hm. pose proof (table_tabular TB) as T. destruct (algorithm_ok HA T AL) as [ST NX].
  destruct (losses_ok LO) as (l & l' & cap & -> & Hcap & Dl & SL). pose proof (@same_value nS nA net T target val HA AL ST NX targ LT dyn qt CL QT s a m Hs Ha Hm) as Hm'.
    exists (ysq nA net target l grads sub lr b1 b2 eps f t b). split; [reflexivity|].
  pose proof (@run nS nA HA net T dyn gamma target val ST NX l grads sub GR lr b1 b2 eps H1 H2 f t th0 targ F0 L0 T0 LT rows b B GB) as RN. split; [intros n; destruct (RN n) as (_ & _ & _ & _ & Y & _); exact Y|].
  intros TT. destruct (@again nS nA HA net T dyn gamma target val ST NX l l' cap Dl Hcap SL grads sub GR lr b1 b2 eps Hlr H1 H2 He f t th0 targ F0 L0 T0 LT rows b B GB s a N m Hs Ha Hm' VI TT) as (n & Hn & A). destruct (RN n) as (Q & LL & _).
  exists n. eexists. eexists. split; [exact Hn|]. split; [exact Q|]. split; [apply (tab_call T); auto|]. exact A.
Qed.
Print Assumptions C130_tables.
(** So it is not true that an update changes only the values of the pairs in its batch: a pair that was in the first batch (with a value
    different from its target) changes in every one of the following updates, although it is in none of their batches. *)
Theorem C130_other_pairs_refuted : forall nS nA dyn gamma net target val loss grads sub lr b1 b2 eps f t th0 targ qt rows b B s a m v0 n,
  table_setting nS nA dyn gamma net target val loss grads lr b1 b2 eps f t th0 targ qt rows b B ->
  (s < nS)%nat -> (a < nA)%nat -> In (s, a) (rows 0%nat) -> (forall k, (1 <= k <= n)%nat -> ~ In (s, a) (rows k)) -> val (next dyn s a) (qt (next dyn s a)) m ->
  q_call_a (Some nA) (one_hot nA) (fun x => x) (net th0) s a = Ok v0 -> v0 <> reward dyn s a + (if ends dyn s a then 0 else gamma * m) ->
  exists ys th th' v v', ys 0%nat = mkSys (learner_of KTD f (Some (adam lr b1 b2 eps))) (Some t) /\ (forall n, ystep nA net target loss grads sub (ys n) (YUpdate (b n)) = (ys (S n), Ok tt)) /\
    q_params (ys n) = Node [0%nat] [Node [0%nat] [Leaf th]] /\ q_params (ys (S n)) = Node [0%nat] [Node [0%nat] [Leaf th']] /\
    q_call_a (Some nA) (one_hot nA) (fun x => x) (net th) s a = Ok v /\ q_call_a (Some nA) (one_hot nA) (fun x => x) (net th') s a = Ok v' /\ v' <> v.
Proof.
  intros nS nA dyn gamma net target val loss grads sub lr b1 b2 eps f t th0 targ qt rows b B s a m v0 n (HA & CL & TB & AL & LO & GR & Hlr & H1 & H2 & He & F0 & L0 & T0 & LT & GB & QT) Hs Ha I0 NI Hm V0 NE. pose proof (table_tabular TB) as T. destruct (algorithm_ok HA T AL) as [ST NX].
  destruct (losses_ok LO) as (l & l' & cap & -> & Hcap & Dl & SL). pose proof (@same_value nS nA net T target val HA AL ST NX targ LT dyn qt CL QT s a m Hs Ha Hm) as Hm'. exists (ysq nA net target l grads sub lr b1 b2 eps f t b).
  pose proof (@run nS nA HA net T dyn gamma target val ST NX l grads sub GR lr b1 b2 eps H1 H2 f t th0 targ F0 L0 T0 LT rows b B GB) as RN. destruct (RN n) as (Q & LL & _). destruct (RN (S n)) as (Q' & LL' & _).
  eexists. eexists. eexists. eexists. split; [reflexivity|]. split; [intros k; destruct (RN k) as (_ & _ & _ & _ & Y & _); exact Y|]. split; [exact Q|]. split; [exact Q'|]. split; [apply (tab_call T); auto|]. split; [apply (tab_call T); auto|].
  rewrite (tab_call T) in V0 by auto. injection V0 as <-.
  destruct (@others_move nS nA HA net T dyn gamma target val ST NX l l' cap Dl Hcap SL grads sub GR lr b1 b2 eps Hlr H1 H2 He f t th0 targ F0 L0 T0 LT rows b B GB s a m Hs Ha Hm' n I0 NI) as [M|M]; [|contradiction]. intros E. rewrite E in M. match type of M with ?p < 0 => replace p with 0 in M by ring end. lra.
Qed.
Print Assumptions C130_other_pairs_refuted.
(** The small environment of C103: the first batch holds all four pairs, the later ones only the pair (0, 0). *)
Definition first_then (n : nat) : list (nat * nat) := match n with O => all_rows | _ => [(0, 0)%nat] end.
Definition one_batch : fbatch nat := mk_fb [0%nat] [one_hot 2 0] [1] (mk_tb [0] [1/2] [0%nat] [one_hot 2 0]).
Definition first_then_b (n : nat) : fbatch nat := match n with O => full_batch | _ => one_batch end.
Lemma one_genuine : genuine 2 2 small (1/2) [(0, 0)%nat] one_batch.
Proof.
  split; [discriminate|]. split; [reflexivity|]. split; [reflexivity|]. do 4 (split; [reflexivity|]). intros i s a s' X1 X2. destruct i as [|i]; cbn in X1, X2; [|destruct i; discriminate]. injection X1 as <- <-. injection X2 as <-. cbn. repeat split; try lia; try lra; try reflexivity.
Qed.
Definition flat : func := mkFunc 0 (Node [0%nat] [Node [0%nat] [Leaf [0; 0; 0; 0]]]) (Node [] []) 0.
Lemma small_setting : table_setting 2 2 small (1/2) (table1 2) (target_q 2 (table1 2)) (by_max 2) mse small_grads (1/1000) (9/10) (999/1000) (1/100000000) flat flat [0; 0; 0; 0] [0; 0; 0; 0] (fun _ _ => 0) first_then first_then_b 4.
Proof.
  split; [lia|]. split; [exact small_closed|]. split; [now left|]. split; [apply alg_q|]. split; [now left|]. split; [exact small_differentiates|]. do 4 (split; [lra|]). do 4 (split; [reflexivity|]). split.
  - intros [|n]; [split; [exact full_genuine|cbn; lia]|split; [exact one_genuine|cbn; lia]].
  - intros s c Hs Hc. rewrite (tab_call (table1_tabular 2 2)) by auto. f_equal. unfold LearnProofs.tq. assert (s * 2 + c < 4)%nat by lia. destruct (s * 2 + c)%nat as [|[|[|[|n]]]]; try reflexivity; lia.
Qed.
Example C130_tables_ex : exists ys, ys 0%nat = mkSys (learner_of KTD flat None) (Some flat) /\ (forall n, ystep 2 (table1 2) (target_q 2 (table1 2)) mse small_grads Nat.eqb (ys n) (YUpdate (first_then_b n)) = (ys (S n), Ok tt)) /\
  forall T, exists n th v, (T <= n)%nat /\ q_params (ys n) = Node [0%nat] [Node [0%nat] [Leaf th]] /\ q_call_a (Some 2%nat) (one_hot 2) (fun x => x) (table1 2 th) 0%nat 0%nat = Ok v /\ Rabs v <= 1 / 100.
Proof.
  destruct (@C130_tables 2 2 small (1/2) (table1 2) (target_q 2 (table1 2)) (by_max 2) mse small_grads Nat.eqb (1/1000) (9/10) (999/1000) (1/100000000) flat flat [0; 0; 0; 0] [0; 0; 0; 0] (fun _ _ => 0) first_then first_then_b 4%nat 1%nat 0%nat 0%nat 0 small_setting) as (ys & Y0 & Y & R); try lia.
  - intros n. exists n. split; [lia|]. destruct n; cbn; auto.
  - split; [exists 0%nat; split; [lia|reflexivity]|intros; lra].
  - exists ys. split; [exact Y0|]. split; [exact Y|]. intros TT. destruct (R TT) as (n & th & v & A & B & C & D). exists n, th, v. split; auto. split; auto. split; auto. cbn in D. rewrite default_sqrt in D. replace (v - (0 + 1/2 * 0)) with v in D by lra. lra.
Qed.
Example C130_other_pairs_ex : forall n, exists ys th th' v v', ys 0%nat = mkSys (learner_of KTD flat None) (Some flat) /\ (forall n, ystep 2 (table1 2) (target_q 2 (table1 2)) mse small_grads Nat.eqb (ys n) (YUpdate (first_then_b n)) = (ys (S n), Ok tt)) /\
  q_params (ys n) = Node [0%nat] [Node [0%nat] [Leaf th]] /\ q_params (ys (S n)) = Node [0%nat] [Node [0%nat] [Leaf th']] /\ q_call_a (Some 2%nat) (one_hot 2) (fun x => x) (table1 2 th) 1%nat 0%nat = Ok v /\ q_call_a (Some 2%nat) (one_hot 2) (fun x => x) (table1 2 th') 1%nat 0%nat = Ok v' /\ v' <> v.
Proof.
  intros n. apply (@C130_other_pairs_refuted 2 2 small (1/2) (table1 2) (target_q 2 (table1 2)) (by_max 2) mse small_grads Nat.eqb (1/1000) (9/10) (999/1000) (1/100000000) flat flat [0; 0; 0; 0] [0; 0; 0; 0] (fun _ _ => 0) first_then first_then_b 4%nat 1%nat 0%nat 0 0 n small_setting); try lia.
  - cbn. auto.
  - intros [|k] Hk; [lia|]. cbn. intuition congruence.
  - split; [exists 0%nat; split; [lia|reflexivity]|intros; lra].
  - rewrite (tab_call (table1_tabular 2 2)) by (auto; lia). reflexivity.
  - cbn. lra.
Qed.
