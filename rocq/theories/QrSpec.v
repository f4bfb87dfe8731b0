(** Specifications for QrModel.v. *)
From Coq Require Import List Bool Arith Reals.
From Verif Require Import PyCommon UtilsSpec DistModel LossModel TDModel TDSpec CoreModel CoreSpec LearnModel MbModel CatModel CatSpec QrModel.
Import ListNotations.
Set Implicit Arguments.
Local Open Scope R_scope.

(** A transition with its importance weight and the quantile fractions that are drawn for it. *)
Record qrow : Type := mk_q { q_row : row; q_w : R; q_taus : list R }.
(** The batch with these rows; the next actions only matter for Sarsa. *)
Definition holds_qrows (nA : nat) (alg : calg) (rows : list qrow) (b : fbatch nat) (taus : list (list R)) : Prop :=
  fb_S b = map (fun x => w_s (q_row x)) rows /\ fb_A b = map (fun x => one_hot nA (w_a (q_row x))) rows /\ fb_W b = map q_w rows /\ taus = map q_taus rows /\
  tb_Rn (fb_t b) = map (fun x => w_r (q_row x)) rows /\ tb_In (fb_t b) = map (fun x => w_in (q_row x)) rows /\ tb_Snext (fb_t b) = map (fun x => w_next (q_row x)) rows /\
  (alg = CSarsa -> tb_Anext (fb_t b) = map (fun x => one_hot nA (w_anext (q_row x))) rows).
(** Indices in range, and K quantile fractions between t0 and 1 - t0. *)
Definition qrows_in (nS nA K : nat) (gamma t0 : R) (rows : list qrow) : Prop :=
  rows_in nS nA gamma (map q_row rows) /\ forall x, In x rows -> length (q_taus x) = K /\ forall t, In t (q_taus x) -> t0 <= t <= 1 - t0.
(** The importance weight as it is used. *)
Definition cwt (x : qrow) : R := Rmax (1/10) (Rmin (q_w x) 10).

(** Entries of the table w, and their mean for a pair. *)
Definition val (nA K : nat) (w : list R) (s a k : nat) : R := nth ((s * nA + a) * K + k) w 0.
Definition val_mean (nA K : nat) (w : list R) (s a : nat) : R := total (map (val nA K w s a) (seq 0 K)) / INR K.
(** The pull of a target at distance e on the quantile with fraction tau. *)
Definition pull (tau e : R) : R := (if Rlt_dec e 0 then 1 - tau else tau) * Rmax (-1) (Rmin e 1).
Definition qpair_sum (s a : nat) (h : qrow -> R) (rows : list qrow) : R := total (map (fun x => if at_pair s a (q_row x) then h x else 0) rows).
(** How much the row x pulls on the entry k of its pair, at the value v. *)
Definition row_pull (nA K : nat) (wt : list R) (x : qrow) (k : nat) (v : R) : R :=
  total (map (fun j => pull (nth k (q_taus x) 0) (w_r (q_row x) + w_in (q_row x) * val nA K wt (w_next (q_row x)) (w_anext (q_row x)) j - v)) (seq 0 K)).

(** The next actions of the rows are the ones that the algorithm uses. *)
Definition quses_next (nA K : nat) (alg : calg) (wt : list R) (rows : list qrow) : Prop :=
  match alg with
  | CSarsa => True
  | CQ => forall x a, In x rows -> (a < nA)%nat -> a <> w_anext (q_row x) -> val_mean nA K wt (w_next (q_row x)) a < val_mean nA K wt (w_next (q_row x)) (w_anext (q_row x))
  end.
(** g is the gradient of the loss for this batch and these fractions. *)
Definition qh_grads (nS nA K : nat) (alg : calg) (g : list R -> list (list R) -> fbatch nat -> list R -> list R) (rows : list qrow) (b : fbatch nat) (taus : list (list R)) : Prop :=
  forall targ w, length targ = (nS * nA * K)%nat -> length w = (nS * nA * K)%nat -> quses_next nA K alg targ rows -> gradient (fun x => loss_value (qd_loss nS nA K alg targ taus b x)) w (g targ taus b w).

(** Every row satisfies the Bellman equation of q: the data are deterministic. *)
Definition fits_q (q : nat -> nat -> R) (rows : list qrow) : Prop :=
  forall x, In x rows -> w_r (q_row x) + w_in (q_row x) * q (w_next (q_row x)) (w_anext (q_row x)) = q (w_s (q_row x)) (w_a (q_row x)).
(** An update on at most B genuine transitions, in any order, with any weights for which the learning rate is small enough. *)
Definition good_update (nS nA K : nat) (gamma t0 lr margin : R) (B : nat) (alg : calg) g (q : nat -> nat -> R) (rows : list qrow) (b : fbatch nat) (taus : list (list R)) : Prop :=
  rows <> [] /\ (length rows <= B)%nat /\ qrows_in nS nA K gamma t0 rows /\ holds_qrows nA alg rows b taus /\ fits_q q rows /\ (forall x, In x rows -> lr * cwt x <= 1) /\ (alg = CQ -> greedy_by nA margin (map q_row rows) q) /\
  qh_grads nS nA K alg g rows b taus.
(** Such updates, and soft updates of q_targ. *)
Inductive good_op (nS nA K : nat) (gamma t0 lr margin : R) (B : nat) (alg : calg) g q : qop -> Prop :=
  | good_u : forall rows b taus, good_update nS nA K gamma t0 lr margin B alg g q rows b taus -> good_op nS nA K gamma t0 lr margin B alg g q (QU b taus)
  | good_s : forall tau, 0 <= tau <= 1 -> good_op nS nA K gamma t0 lr margin B alg g q (QSync tau).
Definition visits (s a : nat) (o : qop) : Prop := exists b taus i, o = QU b taus /\ nth_error (fb_S b) i = Some s /\ exists v, nth_error (fb_A b) i = Some v /\ nth a v 0 = 1.
(** Calls among which every pair is visited; with a target network, a soft update with tau >= tau0 follows. *)
Definition covers (nS nA : nat) (l : list qop) : Prop := forall s a, (s < nS)%nat -> (a < nA)%nat -> exists o, In o l /\ visits s a o.
Definition stretch (nS nA : nat) (targ : bool) (tau0 : R) (l : list qop) : Prop :=
  if targ then exists l1 l2 tau, l = l1 ++ l2 /\ covers nS nA l1 /\ In (QSync tau) l2 /\ tau0 <= tau else covers nS nA l /\ forall tau, ~ In (QSync tau) l.
