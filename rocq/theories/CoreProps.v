(** Property theorems C49, C55, C75, C76. *)
From Coq Require Import List Lia Bool Arith Reals Lra.
From Verif Require Import PyCommon CommonProofs UtilsModel UtilsSpec DistModel CoreModel CoreSpec CoreProofs CoreProofs2.
Import ListNotations.
Set Implicit Arguments.
Local Open Scope R_scope.

(** Example data: a network with one layer {w, b}, and one that has a batch-norm state of another size. *)
Definition net (w b : list R) (s : ptree) : func := mkFunc 0 (Node [7]%nat [Node [1; 2]%nat [Leaf b; Leaf w]]) s 0.
Definition ex1 : func := net [1; 2] [3] (Leaf [0; 0]).
Definition ex2 : func := net [5; 6] [7] (Leaf [4; 8]).
Definition ex_bad : func := net [5; 6] [7] (Leaf [4; 8; 9]).
Definition anysub (c d : nat) : bool := Nat.eqb c d.

(** C49: a soft update towards a function of the same class and shapes succeeds, keeps class, shapes and random key, and replaces every
    entry x of params and function_state by (1 - tau) x + tau y, where y is the entry of the other function at that place. *)
Theorem soft_update_formula : forall sub f g tau, sub (f_cls g) (f_cls f) = true -> shape (f_params f) = shape (f_params g) -> shape (f_state f) = shape (f_state g) ->
  exists p s, soft_update sub f g tau = (mkFunc (f_cls f) p s (f_key f), Ok tt) /\
    entrywise (fun x y => (1 - tau) * x + tau * y) (f_params f) (f_params g) p /\ entrywise (fun x y => (1 - tau) * x + tau * y) (f_state f) (f_state g) s.
Proof. exact soft_update_ok. Qed.
Print Assumptions soft_update_formula.
Example soft_update_formula_ex : exists p s, soft_update anysub ex1 ex2 (1 / 4) = (mkFunc 0 p s 0, Ok tt) /\ entry p [0; 1]%nat 1 = Some (1 / 4 * 6 + 3 / 4 * 2).
Proof.
  destruct (@soft_update_formula anysub ex1 ex2 (1 / 4)) as (p & s & E & [_ P] & _); try reflexivity. exists p, s. split; [exact E|]. rewrite (P [0; 1]%nat 1%nat 2 6) by reflexivity. f_equal. lra.
Qed.

(** For tau between 0 and 1 no entry leaves the interval between its old value and that of the other function; tau = 0 changes nothing
    and tau = 1 copies. *)
Theorem soft_update_between : forall sub f g tau, sub (f_cls g) (f_cls f) = true -> shape (f_params f) = shape (f_params g) -> shape (f_state f) = shape (f_state g) -> 0 <= tau <= 1 ->
  exists f', soft_update sub f g tau = (f', Ok tt) /\ forall path i x y z, (entry (f_params f) path i = Some x /\ entry (f_params g) path i = Some y /\ entry (f_params f') path i = Some z \/
      entry (f_state f) path i = Some x /\ entry (f_state g) path i = Some y /\ entry (f_state f') path i = Some z) ->
    Rmin x y <= z <= Rmax x y /\ (tau = 0 -> z = x) /\ (tau = 1 -> z = y).
Proof.
  intros sub f g tau C EP ES T. destruct (soft_update_ok sub f g tau C EP ES) as (p & s & E & [_ P] & [_ S]). eexists. split; [exact E|]. cbn [f_params f_state]. intros path i x y z H.
  assert (Z : z = (1 - tau) * x + tau * y) by (destruct H as [(A & B & D)|(A & B & D)]; [rewrite (P path i x y A B) in D|rewrite (S path i x y A B) in D]; now injection D).
  split; [|split; intros ->; lra]. unfold Rmin, Rmax. destruct (Rle_dec x y); subst z; split; nra.
Qed.
Print Assumptions soft_update_between.
Example soft_update_between_ex : exists f', soft_update anysub ex1 ex2 1 = (f', Ok tt) /\ entry (f_state f') [] 1 = Some 8.
Proof.
  destruct (@soft_update_formula anysub ex1 ex2 1) as (p & s & E & _ & [_ S]); try reflexivity. eexists. split; [exact E|]. cbn [f_state]. rewrite (S [] 1%nat 0 8) by reflexivity. f_equal. lra.
Qed.

(** Repeated soft updates towards functions g_1, ..., g_k (e.g. one network that is trained in between): every entry is the exponentially
    smoothed sequence of the entries of the g's, in params and in function_state. *)
Theorem soft_updates_are_smoothing : forall sub tau gs f, (forall g, In g gs -> sub (f_cls g) (f_cls f) = true /\ shape (f_params g) = shape (f_params f) /\ shape (f_state g) = shape (f_state f)) ->
  exists f', soft_updates sub tau f gs = (f', Ok tt) /\ f_cls f' = f_cls f /\ shape (f_params f') = shape (f_params f) /\ shape (f_state f') = shape (f_state f) /\
    (forall path i x, entry (f_params f) path i = Some x -> exists ys, length ys = length gs /\ (forall k g, nth_error gs k = Some g -> entry (f_params g) path i = nth_error ys k) /\ entry (f_params f') path i = Some (smoothed tau x ys)) /\
    (forall path i x, entry (f_state f) path i = Some x -> exists ys, length ys = length gs /\ (forall k g, nth_error gs k = Some g -> entry (f_state g) path i = nth_error ys k) /\ entry (f_state f') path i = Some (smoothed tau x ys)).
Proof. exact soft_updates_ema. Qed.
Print Assumptions soft_updates_are_smoothing.
Example soft_updates_are_smoothing_ex : exists f', soft_updates anysub (1 / 2) ex1 [ex2; ex1; ex2] = (f', Ok tt) /\ entry (f_params f') [0; 0]%nat 0 = Some (1 / 8 * 3 + 1 / 2 * (1 / 4 * 7 + 1 / 2 * 3 + 1 * 7)).
Proof.
  destruct (@soft_updates_are_smoothing anysub (1 / 2) [ex2; ex1; ex2] ex1) as (f' & E & _ & _ & _ & P & _).
  { intros g [<-|[<-|[<-|[]]]]; repeat split; reflexivity. }
  exists f'. split; [exact E|]. destruct (P [0; 0]%nat 0%nat 3 eq_refl) as (ys & L & Y & ->). destruct ys as [|a [|b [|c [|]]]]; try discriminate.
  pose proof (Y 0%nat ex2 eq_refl) as A. pose proof (Y 1%nat ex1 eq_refl) as B. pose proof (Y 2%nat ex2 eq_refl) as C. cbn in A, B, C. injection A as <-. injection B as <-. injection C as <-. f_equal. unfold smoothed, total. cbn. lra.
Qed.

(** Towards a fixed function the difference shrinks by the factor 1 - tau with each update, so that for 0 < tau < 2 the function converges
    to it. *)
Theorem soft_updates_converge : forall sub tau f g, sub (f_cls g) (f_cls f) = true -> shape (f_params g) = shape (f_params f) -> shape (f_state g) = shape (f_state f) ->
  (forall k, exists f', soft_updates sub tau f (repeat g k) = (f', Ok tt) /\ forall path i x y, entry (f_params f) path i = Some x -> entry (f_params g) path i = Some y -> exists z, entry (f_params f') path i = Some z /\ z - y = (1 - tau) ^ k * (x - y)) /\
  (0 < tau < 2 -> forall path i x y, entry (f_params f) path i = Some x -> entry (f_params g) path i = Some y -> forall eps, 0 < eps -> exists K, forall k, (K <= k)%nat -> exists f' z, soft_updates sub tau f (repeat g k) = (f', Ok tt) /\ entry (f_params f') path i = Some z /\ Rabs (z - y) < eps).
Proof.
  intros sub tau f g C EP ES.
  assert (A : forall k, exists f', soft_updates sub tau f (repeat g k) = (f', Ok tt) /\ forall path i x y, entry (f_params f) path i = Some x -> entry (f_params g) path i = Some y -> exists z, entry (f_params f') path i = Some z /\ z - y = (1 - tau) ^ k * (x - y)).
  { intros k. destruct (soft_updates_ema sub tau (repeat g k) f) as (f' & E & _ & _ & _ & P & _).
    { intros g' I. apply repeat_spec in I. subst. auto. }
    exists f'. split; auto. intros path i x y X Y. destruct (P path i x X) as (ys & L & N & Z). exists (smoothed tau x ys). split; auto. rewrite (@all_equal_repeat _ y k ys).
    - apply smoothed_const.
    - now rewrite L, repeat_length.
    - intros j J. rewrite <- (N j g); auto. now apply nth_repeat_some. }
  split; [exact A|]. intros T path i x y X Y eps He. destruct (@pow_lt_1_zero (1 - tau)) with (y := eps / (Rabs (x - y) + 1)) as [K HK].
  { apply Rabs_def1; lra. }
  { apply Rdiv_lt_0_compat; auto. pose proof (Rabs_pos (x - y)). lra. }
  exists K. intros k Hk. destruct (A k) as (f' & E & P). destruct (P path i x y X Y) as (z & Z & D). exists f', z. split; auto. split; auto. rewrite D, Rabs_mult. specialize (HK k Hk). pose proof (Rabs_pos (x - y)). pose proof (Rabs_pos ((1 - tau) ^ k)).
  apply Rmult_lt_compat_r with (r := Rabs (x - y) + 1) in HK; [|lra]. unfold Rdiv in HK. rewrite Rmult_assoc, Rinv_l, Rmult_1_r in HK by lra. nra.
Qed.
Print Assumptions soft_updates_converge.
Example soft_updates_converge_ex : exists f', soft_updates anysub (1 / 2) ex1 (repeat ex2 3) = (f', Ok tt) /\ exists z, entry (f_params f') [0; 1]%nat 0 = Some z /\ z - 5 = (1 - 1 / 2) ^ 3 * (1 - 5).
Proof. destruct (@soft_updates_converge anysub (1 / 2) ex1 ex2) as [H _]; try reflexivity. destruct (H 3%nat) as (f' & E & P). exists f'. split; [exact E|]. now apply P. Qed.

(** Another class: TypeError, nothing changed. *)
Theorem soft_update_other_class : forall sub f g tau, sub (f_cls g) (f_cls f) = false -> soft_update sub f g tau = (f, Err EType).
Proof. exact soft_update_class. Qed.
Print Assumptions soft_update_other_class.
Example soft_update_other_class_ex : soft_update anysub ex1 (mkFunc 1 (f_params ex2) (f_state ex2) 0) (1 / 2) = (ex1, Err EType).
Proof. reflexivity. Qed.

(** Parameters of another structure: TypeError where an array meets a container, ValueError otherwise; nothing changed. *)
Theorem soft_update_other_structure : forall sub f g tau, sub (f_cls g) (f_cls f) = true ->
  (bare (f_params g) <> bare (f_params f) -> exists e, soft_update sub f g tau = (f, Err e)) /\
  (forall x k cs, f_params f = Leaf x -> f_params g = Node k cs -> soft_update sub f g tau = (f, Err EType)) /\
  (forall x k cs, f_params f = Node k cs -> f_params g = Leaf x -> soft_update sub f g tau = (f, Err EValue)) /\
  (forall k cs k' ds, f_params f = Node k cs -> f_params g = Node k' ds -> k <> k' -> soft_update sub f g tau = (f, Err EValue)).
Proof.
  intros sub f g tau Hs. unfold soft_update. rewrite Hs. split; [|split; [|split]].
  - intros N. destruct (soft_update_func tau (f_params f) (f_params g)) as [p|e] eqn:E; eauto. unfold soft_update_func in E. apply tmap2_bare in E. destruct E. congruence.
  - intros x k cs -> ->. reflexivity.
  - intros x k cs -> ->. reflexivity.
  - intros k cs k' ds -> -> N. unfold soft_update_func. rewrite tmap2_node. destruct (keys_eqb k k') eqn:K; [apply keys_eqb_eq in K; congruence|reflexivity].
Qed.
Print Assumptions soft_update_other_structure.
Example soft_update_other_structure_ex : bare (f_params (mkFunc 0 (Leaf [1]) (Leaf []) 0)) <> bare (f_params ex1).
Proof. discriminate. Qed.

(** A soft update that raises can leave the parameters updated and the function state not. *)
Theorem soft_update_atomic_refuted : exists sub f g tau f' e, soft_update sub f g tau = (f', Err e) /\ f_params f' <> f_params f /\ f_state f' = f_state f.
Proof.
  exists anysub, ex1, ex_bad, 1. eexists. exists EType. split; [cbn; reflexivity|]. cbn [f_params f_state ex1 net with_params]. split; [|reflexivity]. intros H. injection H as H _ _. lra.
Qed.
Print Assumptions soft_update_atomic_refuted.
(** Array sizes are not checked: one-element arrays are broadcast, so a soft update can change the shapes of the parameters. *)
Theorem soft_update_shape_refuted : exists sub f g tau f', soft_update sub f g tau = (f', Ok tt) /\ shape (f_params f') <> shape (f_params f).
Proof. exists anysub, (net [1] [1] (Leaf [])), (net [1; 2; 3] [1] (Leaf [])), (1 / 2). eexists. split; [cbn; reflexivity|]. cbn. discriminate. Qed.
Print Assumptions soft_update_shape_refuted.

(** C75: a copy is equal to the original at the time of copying, and the two are independent afterwards: whatever a program does, an
    object that is not the one acted upon keeps its class, params, function_state and random key. *)
Theorem copies_are_independent : forall sub h i f, nth_error h i = Some f ->
  nth_error (fst (hstep sub h (HCopy i))) (length h) = Some f /\ nth_error (fst (hstep sub h (HCopy i))) i = Some f /\
  forall os, ((forall o, In o os -> target o <> Some (length h)) -> nth_error (hrun sub (fst (hstep sub h (HCopy i))) os) (length h) = Some f) /\
             ((forall o, In o os -> target o <> Some i) -> nth_error (hrun sub (fst (hstep sub h (HCopy i))) os) i = Some f).
Proof.
  intros sub h i f H. assert (A : nth_error (fst (hstep sub h (HCopy i))) (length h) = Some f) by (cbn [hstep]; rewrite H; cbn [fst]; rewrite nth_error_app2, Nat.sub_diag by lia; reflexivity).
  assert (B : nth_error (fst (hstep sub h (HCopy i))) i = Some f) by (apply hstep_frame; auto; discriminate).
  split; auto. split; auto. intros os. split; intros T; now apply hrun_frame.
Qed.
Print Assumptions copies_are_independent.
Example copies_are_independent_ex : nth_error (hrun anysub [ex1; ex2] [HCopy 0; HSoft 0 1 1; HRng 0; HParams 1 (f_params ex1)]) 2 = Some ex1 /\ nth_error (hrun anysub [ex1; ex2] [HCopy 0; HRng 0]) 0 <> Some ex1.
Proof.
  split; [|cbn; discriminate]. change (hrun anysub [ex1; ex2] [HCopy 0; HSoft 0 1 1; HRng 0; HParams 1 (f_params ex1)]) with (hrun anysub (fst (hstep anysub [ex1; ex2] (HCopy 0))) [HSoft 0 1 1; HRng 0; HParams 1 (f_params ex1)]).
  apply (copies_are_independent anysub [ex1; ex2] 0 eq_refl). intros o [<-|[<-|[<-|[]]]]; discriminate.
Qed.
(** The copy starts from the random key of the original: both draw the same keys. *)
Theorem copies_draw_the_same_keys : forall sub h i f n, nth_error h i = Some f -> let h' := hrun sub (fst (hstep sub h (HCopy i))) (repeat (HRng i) n ++ repeat (HRng (length h)) n) in
  exists a b, nth_error h' i = Some a /\ nth_error h' (length h) = Some b /\ f_key a = f_key b /\ f_key a = (f_key f + n)%nat.
Proof.
  intros sub h i f n H h'. destruct (copies_are_independent sub h i H) as (A & B & _). assert (I : (i < length h)%nat) by (apply nth_error_Some; congruence). unfold h'. set (h1 := fst (hstep sub h (HCopy i))) in *. clearbody h1.
  assert (R : forall n h j f, nth_error h j = Some f -> exists f', nth_error (hrun sub h (repeat (HRng j) n)) j = Some f' /\ f_key f' = (f_key f + n)%nat).
  { clear. induction n as [|n IH]; intros h j f H; [exists f; split; auto|]. cbn [repeat hrun fold_left]. destruct (IH (fst (hstep sub h (HRng j))) j (next_key f)) as (f' & E & K).
    { cbn [hstep]. unfold on_obj. rewrite H. cbn [fst]. clear - H. revert j H. induction h as [|a h IH]; intros [|j] H; try discriminate; cbn in *; [injection H as ->; auto|auto]. }
    exists f'. split; auto. rewrite K. cbn. lia. }
  unfold hrun. rewrite fold_left_app. fold (hrun sub h1 (repeat (HRng i) n)). set (h2 := hrun sub h1 (repeat (HRng i) n)). fold (hrun sub h2 (repeat (HRng (length h)) n)).
  destruct (R n h1 i f B) as (a & A1 & A2). fold h2 in A1. exists a. destruct (R n h2 (length h) f) as (b & B1 & B2).
  { apply hrun_frame; auto. intros o J. apply repeat_spec in J. subst. cbn. intros E. injection E as E. lia. }
  exists b. split; [|split; [auto|split; congruence]]. apply hrun_frame; auto. intros o J. apply repeat_spec in J. subst. cbn. intros E. injection E as E. lia.
Qed.
Print Assumptions copies_draw_the_same_keys.
Example copies_draw_the_same_keys_ex : exists a b, nth_error (hrun anysub [ex1; ex1] [HRng 0; HRng 0; HRng 1; HRng 1]) 0 = Some a /\ nth_error (hrun anysub [ex1; ex1] [HRng 0; HRng 0; HRng 1; HRng 1]) 1 = Some b /\ f_key a = 2%nat /\ f_key b = 2%nat.
Proof. cbn. eexists. eexists. repeat split. Qed.
(** No program changes the class of an object or the structure of its parameters and state (sizes of arrays are not protected). *)
Theorem structure_is_kept : forall sub os h k f, nth_error h k = Some f -> exists f', nth_error (hrun sub h os) k = Some f' /\ f_cls f' = f_cls f /\ bare (f_params f') = bare (f_params f) /\ bare (f_state f') = bare (f_state f).
Proof. exact hrun_kind. Qed.
Print Assumptions structure_is_kept.
Example structure_is_kept_ex : exists f', nth_error (hrun anysub [ex1; ex2] [HSoft 0 1 (1 / 2); HParams 0 (Leaf [1])]) 0 = Some f' /\ bare (f_params f') = Node [7]%nat [Node [1; 2]%nat [Leaf tt; Leaf tt]].
Proof. destruct (structure_is_kept anysub [HSoft 0 1 (1 / 2); HParams 0 (Leaf [1])] [ex1; ex2] 0 eq_refl) as (f' & E & _ & P & _). exists f'. split; [exact E|]. now rewrite P. Qed.

(** C55: an update with a nan anywhere in the gradients raises RuntimeError and changes nothing but the random key. *)
Theorem update_with_nan : forall (M : Type) gam l g fs (m : M), gam (f_params (l_func l)) (f_state (l_func l)) (f_key (l_func l)) = Ok (g, fs, m) -> nan_somewhere g ->
  exists l', update gam l = (l', Err ERuntime) /\ same_but_key l l'.
Proof. exact update_nan. Qed.
Print Assumptions update_with_nan.
(** Plain gradient descent with step 1, and momentum with the momentum tree as state. *)
Fixpoint neg_tree (g : gtree) : ptree := match g with Leaf x => Leaf (map (fun y => match y with Some z => - z | None => 0 end) x) | Node k cs => Node k (map neg_tree cs) end.
Definition sgd : optimizer := mkOpt (fun _ => Node [] []) (fun g os _ => Ok (neg_tree g, os)).
Definition ex_grad : gtree := Node [7]%nat [Node [1; 2]%nat [Leaf [Some 1]; Leaf [Some 2; Some 3]]].
Definition ex_nan : gtree := Node [7]%nat [Node [1; 2]%nat [Leaf [Some 1]; Leaf [Some 2; None]]].
Definition ex_learner : learner := new_learner KTD ex1 sgd.
Example update_with_nan_ex : exists l', update (fun p s k => Ok (ex_nan, Leaf [1; 1], tt)) ex_learner = (l', Err ERuntime) /\ f_state (l_func l') = Leaf [0; 0].
Proof.
  destruct (@update_with_nan unit (fun p s k => Ok (ex_nan, Leaf [1; 1], tt)) ex_learner ex_nan (Leaf [1; 1]) tt eq_refl) as (l' & E & _ & _ & _ & _ & _ & S).
  - exists [0; 1]%nat, [Some 2; None]. split; [reflexivity|]. cbn. auto.
  - exists l'. split; [exact E|]. now rewrite S.
Qed.
(** An error inside the computation of the gradients changes nothing but the random key. *)
Theorem update_with_failing_grads : forall (M : Type) (gam : ptree -> ptree -> nat -> outcome (gtree * ptree * M)) l e, gam (f_params (l_func l)) (f_state (l_func l)) (f_key (l_func l)) = Err e ->
  exists l', update gam l = (l', Err e) /\ same_but_key l l'.
Proof. exact update_gam_err. Qed.
Print Assumptions update_with_failing_grads.
Example update_with_failing_grads_ex : exists l', update (fun p s k => if Nat.eqb k 0 then @Err (gtree * ptree * unit) EValue else Ok (ex_grad, s, tt)) ex_learner = (l', Err EValue).
Proof. eexists. cbn. reflexivity. Qed.
(** Without nan: with an optimizer that returns updates of the shape of the parameters, the update adds them to the parameters entry by
    entry, and installs the new function state and optimizer state. *)
Theorem update_without_nan : forall (M : Type) gam l g fs (m : M) u os, gam (f_params (l_func l)) (f_state (l_func l)) (f_key (l_func l)) = Ok (g, fs, m) -> ~ nan_somewhere g ->
  o_update (l_opt l) g (l_ostate l) (f_params (l_func l)) = Ok (u, os) -> bare fs = bare (f_state (l_func l)) -> shape u = shape (f_params (l_func l)) -> (l_kind l = KPolicy \/ bare os = bare (l_ostate l)) ->
  exists p l', update gam l = (l', Ok m) /\ entrywise Rplus (f_params (l_func l)) u p /\ fully_updated (with_func l (next_key (l_func l))) l' fs os p.
Proof. exact update_ok. Qed.
Print Assumptions update_without_nan.
Example update_without_nan_ex : exists p l', update (fun p s k => Ok (ex_grad, Leaf [1; 1], tt)) ex_learner = (l', Ok tt) /\ l_func l' = mkFunc 0 p (Leaf [1; 1]) 1 /\ entry p [0; 1]%nat 1 = Some (2 + - 3).
Proof.
  destruct (@update_without_nan unit (fun p s k => Ok (ex_grad, Leaf [1; 1], tt)) ex_learner ex_grad (Leaf [1; 1]) tt (neg_tree ex_grad) (Node [] [])) as (p & l' & E & [_ P] & F); try reflexivity.
  - intros (path & x & A & B). assert (I : In x (leaves ex_grad)) by (apply in_leaves; eauto). cbn in I. destruct I as [<-|[<-|[]]]; cbn in B; intuition discriminate.
  - auto.
  - exists p, l'. split; [exact E|]. split; [rewrite F; reflexivity|]. now apply P.
Qed.
(** Whatever the optimizer and the gradients: an update that raises has not changed the parameters, and an update that does not raise has
    used gradients without nan and installed all three results. *)
Theorem update_all_or_params : forall (M : Type) gam l l' (r : outcome M), update gam l = (l', r) ->
  (forall e, r = Err e -> f_params (l_func l') = f_params (l_func l)) /\
  (forall m, r = Ok m -> exists g fs u os p, gam (f_params (l_func l)) (f_state (l_func l)) (f_key (l_func l)) = Ok (g, fs, m) /\ ~ nan_somewhere g /\
     o_update (l_opt l) g (l_ostate l) (f_params (l_func l)) = Ok (u, os) /\ tmap2 (jop Rplus) (f_params (l_func l)) u = Ok p /\ fully_updated (with_func l (next_key (l_func l))) l' fs os p).
Proof. intros M gam l l' r H. apply update_inv in H. tauto. Qed.
Print Assumptions update_all_or_params.
Example update_all_or_params_ex : exists l', update (fun p s k => Ok (ex_grad, Node [] [], tt)) ex_learner = (l', Err EType).
Proof. eexists. cbn. reflexivity. Qed.
(** With an optimizer that always returns updates and states of the right form, and gradients computed with a function state of the right
    structure, an update is atomic: either everything is replaced or only the random key has moved. *)
Theorem update_atomic_for_lawful_optimizers : forall (M : Type) gam l l' (r : outcome M), lawful (l_opt l) -> (forall p s k g fs m, gam p s k = Ok (g, fs, m) -> bare fs = bare s) -> update gam l = (l', r) ->
  (exists e, r = Err e /\ same_but_key l l') \/ (exists m g fs u os p, r = Ok m /\ gam (f_params (l_func l)) (f_state (l_func l)) (f_key (l_func l)) = Ok (g, fs, m) /\ o_update (l_opt l) g (l_ostate l) (f_params (l_func l)) = Ok (u, os) /\
    entrywise Rplus (f_params (l_func l)) u p /\ fully_updated (with_func l (next_key (l_func l))) l' fs os p).
Proof. exact update_atomic. Qed.
Print Assumptions update_atomic_for_lawful_optimizers.
(** Weight decay: the updates are minus a tenth of the parameters. *)
Fixpoint scale_tree (c : R) (p : ptree) : ptree := match p with Leaf x => Leaf (map (Rmult c) x) | Node k cs => Node k (map (scale_tree c) cs) end.
Definition decay : optimizer := mkOpt (fun _ => Node [] []) (fun _ os p => Ok (scale_tree (- (1 / 10)) p, os)).
Lemma scale_shape : forall c p, shape (scale_tree c p) = shape p.
Proof. intros c p. induction p as [x|k cs IH] using tree_induction; cbn [scale_tree shape]; [now rewrite map_length|]. f_equal. rewrite map_map. apply map_ext_in. intros t I. rewrite Forall_forall in IH. now apply IH. Qed.
Example decay_lawful : lawful decay.
Proof. intros g os p. exists (scale_tree (- (1 / 10)) p), os. split; [reflexivity|]. split; [apply scale_shape|reflexivity]. Qed.
(** In general it is not: if the optimizer raises (here: because the gradients do not fit the parameters), the function state has already
    been replaced. *)
Theorem apply_grads_atomic_refuted : exists l g fs l' e, apply_grads l g fs = (l', Err e) /\ f_state (l_func l') <> f_state (l_func l) /\ f_params (l_func l') = f_params (l_func l).
Proof.
  exists ex_learner, (Leaf [Some 1]), (Leaf [1; 1]). eexists. exists EValue. split; [cbn; reflexivity|]. cbn [l_func with_func with_state f_state ex_learner new_learner ex1 net f_params]. split; [|reflexivity]. intros H. injection H. lra.
Qed.
Print Assumptions apply_grads_atomic_refuted.

(** C76: whatever a program does with a learner (updates, applying gradients, setting optimizer, optimizer state, parameters, state;
    successful or not), class and structure of params and function_state stay; for TD learners and model updaters also that of the
    optimizer state. *)
Theorem learner_structure_is_kept : forall os l, l_kind (lrun l os) = l_kind l /\ f_cls (l_func (lrun l os)) = f_cls (l_func l) /\ bare (f_params (l_func (lrun l os))) = bare (f_params (l_func l)) /\ bare (f_state (l_func (lrun l os))) = bare (f_state (l_func l)) /\
  (l_kind l <> KPolicy -> bare (l_ostate (lrun l os)) = bare (l_ostate l)).
Proof. exact lrun_keeps. Qed.
Print Assumptions learner_structure_is_kept.
Example learner_structure_is_kept_ex : bare (l_ostate (lrun ex_learner [LOstate (Leaf [1]); LOptimizer decay; LUpdate (fun p s k => Ok (ex_grad, s, tt))])) = Node [] [].
Proof. destruct (learner_structure_is_kept [LOstate (Leaf [1]); LOptimizer decay; LUpdate (fun p s k => Ok (ex_grad, s, tt))] ex_learner) as (_ & _ & _ & _ & H). rewrite H; [reflexivity|discriminate]. Qed.
(** For these two kinds the optimizer state always fits the optimizer, from the constructor on. *)
Theorem optimizer_state_fits : forall os k f o, k <> KPolicy -> structural o -> (forall o', In (LOptimizer o') os -> structural o') ->
  let l := lrun (new_learner k f o) os in bare (o_init (l_opt l) (f_params (l_func l))) = bare (l_ostate l).
Proof. intros os k f o K S SO l. apply lrun_fits; auto. Qed.
Print Assumptions optimizer_state_fits.
Definition momentum : optimizer := mkOpt (fun p => p) (fun _ os p => Ok (os, os)).
Example optimizer_state_fits_ex : structural sgd /\ structural momentum /\ l_opt (lrun ex_learner [LOptimizer momentum; LOptimizer decay]) = decay.
Proof. split; [|split]. - intros p q _. reflexivity. - intros p q H. exact H. - reflexivity. Qed.
(** A policy objective accepts any optimizer state, and its optimizer can never be replaced. *)
Theorem policy_optimizer_state_refuted : exists f o os, structural o /\ let l := lrun (new_learner KPolicy f o) os in bare (o_init (l_opt l) (f_params (l_func l))) <> bare (l_ostate l).
Proof. exists ex1, sgd, [LOstate (Leaf [1])]. split; [intros p q _; reflexivity|]. cbn. discriminate. Qed.
Print Assumptions policy_optimizer_state_refuted.
Theorem policy_optimizer_never_replaced : forall f o os, l_opt (lrun (new_learner KPolicy f o) os) = o /\ forall o', snd (lstep (lrun (new_learner KPolicy f o) os) (LOptimizer o')) = Err EAttribute.
Proof.
  intros f o os. destruct (lrun_keeps os (new_learner KPolicy f o)) as (K & _). cbn [new_learner l_kind] in K. split.
  - clear K. assert (G : forall os l, l_kind l = KPolicy -> l_opt (lrun l os) = l_opt l).
    { clear. induction os as [|x os IH]; intros l K; [reflexivity|]. cbn [lrun fold_left]. destruct (lstep l x) as [l1 r] eqn:E. pose proof (lstep_keeps _ _ E) as (A & _). cbn [fst]. unfold lrun in IH. rewrite IH by congruence. destruct (lstep_opt _ _ E) as [->|(o' & -> & _ & _)]; auto. cbn [lstep] in E. unfold set_optimizer in E. rewrite K in E. injection E as <- _. reflexivity. }
    now apply (G os (new_learner KPolicy f o)).
  - intros o'. cbn [lstep]. unfold set_optimizer. now rewrite K.
Qed.
Print Assumptions policy_optimizer_never_replaced.
Example policy_optimizer_never_replaced_ex : snd (lstep (new_learner KPolicy ex1 sgd) (LOptimizer sgd)) = Err EAttribute.
Proof. reflexivity. Qed.

(** C76: what the setters accept, what they do, and what they raise.  Everything else is refused and leaves the object as it was. *)
Theorem setters_check_structure : forall l (x : ptree),
  (bare x = bare (f_params (l_func l)) -> lstep l (LParams x) = (with_func l (with_params (l_func l) x), Ok tt)) /\
  (bare x <> bare (f_params (l_func l)) -> lstep l (LParams x) = (l, Err EType)) /\
  (bare x = bare (f_state (l_func l)) -> lstep l (LState x) = (with_func l (with_state (l_func l) x), Ok tt)) /\
  (bare x <> bare (f_state (l_func l)) -> lstep l (LState x) = (l, Err EType)) /\
  (l_kind l <> KPolicy -> bare x = bare (l_ostate l) -> lstep l (LOstate x) = (mkLearner (l_kind l) (l_func l) (l_opt l) x, Ok tt)) /\
  (l_kind l <> KPolicy -> bare x <> bare (l_ostate l) -> lstep l (LOstate x) = (l, Err EAttribute)).
Proof.
  intros l x. assert (T : forall y : ptree, bare x = bare y -> same_structure x y = true) by (intros; now apply same_bare).
  assert (F : forall y : ptree, bare x <> bare y -> same_structure x y = false) by (intros y H; destruct (same_structure x y) eqn:E; auto; apply same_bare in E; congruence).
  cbn [lstep]. unfold set_params, set_state, set_ostate. destruct l as [k f o os]. cbn [l_kind l_func l_opt l_ostate].
  split; [intros H; rewrite T by auto; reflexivity|]. split; [intros H; rewrite F by auto; reflexivity|]. split; [intros H; rewrite T by auto; reflexivity|]. split; [intros H; rewrite F by auto; reflexivity|].
  split; intros K H; destruct k; try congruence; cbv zeta; first [rewrite T by auto | rewrite F by auto]; reflexivity.
Qed.
Print Assumptions setters_check_structure.
Example setters_check_structure_ex : bare (Leaf [1; 2; 3]) = bare (Leaf [4; 5; 6]) /\ bare (Leaf [1]) <> bare (f_params (l_func ex_learner)).
Proof. split; [reflexivity|cbn; discriminate]. Qed.
Theorem optimizer_setter : forall l o, l_kind l <> KPolicy ->
  (bare (o_init o (f_params (l_func l))) = bare (l_ostate l) -> lstep l (LOptimizer o) = (mkLearner (l_kind l) (l_func l) o (l_ostate l), Ok tt)) /\
  (bare (o_init o (f_params (l_func l))) <> bare (l_ostate l) -> lstep l (LOptimizer o) = (l, Err EAttribute)).
Proof.
  intros l o K. cbn [lstep]. unfold set_optimizer. split; intros H.
  - assert (E : same_structure (o_init o (f_params (l_func l))) (l_ostate l) = true) by now apply same_bare. rewrite E. destruct (l_kind l); congruence.
  - destruct (same_structure (o_init o (f_params (l_func l))) (l_ostate l)) eqn:E; [apply same_bare in E; congruence|]. destruct (l_kind l); congruence.
Qed.
Print Assumptions optimizer_setter.
Example optimizer_setter_ex : l_kind ex_learner <> KPolicy /\ bare (o_init momentum (f_params (l_func ex_learner))) <> bare (l_ostate ex_learner).
Proof. split; discriminate. Qed.
