(** Specifications for MbModel.v: a data set of transitions, its empirical means and values. *)
From Coq Require Import List Bool Arith Reals.
From Verif Require Import PyCommon UtilsSpec DistModel LossModel TDModel TDSpec CoreModel CoreSpec LearnModel MbModel.
Import ListNotations.
Set Implicit Arguments.
Local Open Scope R_scope.

(** A recorded transition: state, action, reward, whether the episode ended, the recorded next state, its importance weight. *)
Record trans : Type := mk_t { t_s : nat; t_a : nat; t_r : R; t_done : bool; t_next : nat; t_w : R }.
Definition bounded (nS nA : nat) (rows : list trans) : Prop := forall x, In x rows -> (t_s x < nS)%nat /\ (t_a x < nA)%nat /\ (t_next x < nS)%nat.
(** The batch with these rows, as a tracer with n = 1 and discount factor gamma makes it. *)
Definition records (nA : nat) (gamma : R) (rows : list trans) (b : fbatch nat) : Prop :=
  fb_S b = map t_s rows /\ fb_A b = map (fun x => one_hot nA (t_a x)) rows /\ fb_W b = map t_w rows /\ tb_Rn (fb_t b) = map t_r rows /\
  tb_In (fb_t b) = map (fun x => if t_done x then 0 else gamma) rows /\ tb_Snext (fb_t b) = map t_next rows.

(** The importance weight after clipping. *)
Definition cw (x : trans) : R := Rmax (1/10) (Rmin (t_w x) 10).
(** Weighted sums and means over those rows that satisfy P. *)
Definition wsum (P : trans -> bool) (h : trans -> R) (rows : list trans) : R := total (map (fun x => if P x then cw x * h x else 0) rows).
Definition wmean (P : trans -> bool) (h : trans -> R) (rows : list trans) : R := wsum P h rows / wsum P (fun _ => 1) rows.
Definition at_s (s : nat) (x : trans) : bool := Nat.eqb (t_s x) s.
Definition at_sa (s a : nat) (x : trans) : bool := Nat.eqb (t_s x) s && Nat.eqb (t_a x) a.
Definition every_state (nS : nat) (rows : list trans) : Prop := forall s, (s < nS)%nat -> exists x, In x rows /\ t_s x = s.
Definition every_pair (nS nA : nat) (rows : list trans) : Prop := forall s a, (s < nS)%nat -> (a < nA)%nat -> exists x, In x rows /\ t_s x = s /\ t_a x = a.
(** v solves the Bellman equations of the data set. *)
Definition data_values (nS : nat) (gamma : R) (rows : list trans) (v : nat -> R) : Prop := forall s, (s < nS)%nat ->
  v s = wmean (at_s s) (fun x => t_r x + (if t_done x then 0 else gamma * v (t_next x))) rows.
(** The learning rate fits the weights. *)
Definition rate_fits (lr : R) (rows : list trans) : Prop := 0 < lr /\ forall x, In x rows -> lr * cw x <= 1.
(** The squared loss, or a Huber loss that is quadratic on differences of at most D. *)
Definition quadratic (l : R -> R -> R) (D : R) : Prop := l = mse1 \/ exists delta, l = huber1 delta /\ 0 < delta /\ D <= delta.

(** The number of updates of each kind. *)
Definition is_v (o : aop) : bool := match o with AV _ => true | _ => false end.
Definition is_p (o : aop) : bool := match o with AP _ => true | _ => false end.
Definition is_r (o : aop) : bool := match o with AR _ => true | _ => false end.
Definition on (b : fbatch nat) (o : aop) : Prop := o = AV b \/ o = AP b \/ o = AR b.
Definition count (P : aop -> bool) (os : list aop) : nat := length (filter P os).

(** The agent holds tables of the right sizes and uses SGD with these learning rates. *)
Definition holds (l : learner) (lr : R) (th : list R) : Prop := l_opt l = sgd lr /\ f_params (l_func l) = Node [0%nat] [Node [0%nat] [Leaf th]].
Definition tables (nS nA : nat) (lrv lrp lrr : R) (y : agent) (wv wp wr : list R) : Prop :=
  holds (ag_v y) lrv wv /\ holds (ag_p y) lrp wp /\ holds (ag_r y) lrr wr /\ length wv = nS /\ length wp = (nS * nA * nS)%nat /\ length wr = (nS * nA)%nat.
(** The gradients are those of the losses, for this batch. *)
Definition grads_ok (nS nA : nat) (lp lr : R -> R -> R) (gp gr gv : fbatch nat -> list R -> list R) (b : fbatch nat) : Prop :=
  (forall w, length w = (nS * nA * nS)%nat -> gradient (fun x => loss_value (p_loss nS nA lp b x)) w (gp b w)) /\
  (forall w, length w = (nS * nA)%nat -> gradient (fun x => loss_value (r_loss nS nA lr b x)) w (gr b w)) /\
  (forall w, length w = nS -> gradient (fun x => loss_value (v_loss nS mse w b x)) w (gv b w)).
(** Whether the next state is k, as a number. *)
Definition hit (k : nat) (x : trans) : R := if Nat.eqb k (t_next x) then 1 else 0.
(** Initial tables: p with entries in [0, 1], r with entries in [lo, hi]. *)
Definition starts (nS nA : nat) (lo hi : R) (wp wr : list R) : Prop :=
  (forall s a k, (s < nS)%nat -> (a < nA)%nat -> (k < nS)%nat -> 0 <= nth ((s * nA + a) * nS + k) wp 0 <= 1) /\ (forall s a, (s < nS)%nat -> (a < nA)%nat -> lo <= nth (s * nA + a) wr 0 <= hi).
(** A data set in which every state occurs, recorded in b, with rewards in [lo, hi]; loss functions, their gradients, learning rates. *)
Definition setting (nS nA : nat) (gamma : R) (rows : list trans) (b : fbatch nat) (lp lr : R -> R -> R) (gp gr gv : fbatch nat -> list R -> list R) (lo hi lrv lrp lrr : R) : Prop :=
  (1 <= nS)%nat /\ (1 <= nA)%nat /\ 0 <= gamma < 1 /\ bounded nS nA rows /\ every_state nS rows /\ records nA gamma rows b /\ (forall x, In x rows -> lo <= t_r x <= hi) /\
  quadratic lp 1 /\ quadratic lr (hi - lo) /\ grads_ok nS nA lp lr gp gr gv b /\ rate_fits lrv rows /\ rate_fits lrp rows /\ rate_fits lrr rows.
(** The action is the one g chooses. *)
Definition follows (g : nat -> nat) (x : trans) : bool := Nat.eqb (t_a x) (g (t_s x)).
(** g s is a largest entry of the numbers q(s). *)
Definition greedy_for (nS nA : nat) (q : nat -> outcome (list R)) (g : nat -> nat) : Prop := forall s, (s < nS)%nat -> (g s < nA)%nat /\
  exists z, q s = Ok z /\ length z = nA /\ forall a, (a < nA)%nat -> nth a z 0 <= nth (g s) z 0.
