(** Specifications for PpoModel.v: rows of a batch, where PPO-clip pushes the parameters, advantages. *)
From Coq Require Import List Bool Arith Reals.
From Verif Require Import PyCommon UtilsSpec DistModel LossModel QModel TDModel TDSpec CoreModel TracerModel WorkerModel PolicyModel PolicySpec LearnModel PgModel PgSpec AcModel AcSpec PpoModel.
Import ListNotations.
Set Implicit Arguments.
Local Open Scope R_scope.

(** A row of a batch: state, action, importance weight, recorded log-propensity; and the advantage it comes with. *)
Record prow : Type := mkRow { w_s : nat; w_a : nat; w_w : R; w_logp : R; w_adv : R }.
Definition has_rows (nA : nat) (b : pbatch) (Adv : list R) (rows : list prow) : Prop :=
  rows <> [] /\ (forall x, In x rows -> (w_a x < nA)%nat) /\ fb_S (pb_b b) = map w_s rows /\ fb_A (pb_b b) = map (fun x => one_hot nA (w_a x)) rows /\
  fb_W (pb_b b) = map w_w rows /\ pb_logP b = map w_logp rows /\ Adv = map w_adv rows.
(** Importance weights are clipped to [0.1, 10]. *)
Definition weight (w : R) : R := Rmin (Rmax w (1/10)) 10.

Section Rows.
Variables nA N : nat.
Variable net : list R -> nat -> list R.
Variable eps : R.
(** The ratio of the probability of the action to the recorded one. *)
Definition row_ratio (th : list R) (x : prow) : R := prob nA net th (w_s x) (w_a x) / exp (w_logp x).
(** jax.grad computes the gradients of the loss, for batches without a row at a kink. *)
Definition ppo_differentiates (grads : list R -> pbatch -> list R -> list R) : Prop :=
  forall th b Adv rows, length th = N -> has_rows nA b Adv rows -> (forall x, In x rows -> exists k, ppo_slope (w_adv x) eps (row_ratio th x) k) ->
  gradient (fun p => loss_value (ppo_loss nA net eps b Adv p)) th (grads th b Adv).
End Rows.

(** The advantage of an action, if states have the values v. *)
Definition advantage (P : list R) (dyn : nat -> nat -> nat -> nat * R * bool) (gamma : R) (v : nat -> R) (s a : nat) : R := action_value P dyn gamma v s a - v s.
(** A batch of one row with unit weight. *)
Definition one_pbatch (nA s a : nat) (logp : R) (t : tbatch nat) : pbatch := mk_pb (mk_fb [s] [one_hot nA a] [1] t) [logp].
(** The mean loss in a state over the actions of the old policy th, as a function of the new parameters th'; for the values v. *)
Definition mean_loss (nA : nat) (net : list R -> nat -> list R) (eps : R) (P : list R) (dyn : nat -> nat -> nat -> nat * R * bool) (gamma : R) (v : nat -> R) (th : list R) (t : tbatch nat) (th' : list R) (s : nat) : R :=
  expectation nA (prob nA net th s) (fun a => loss_value (ppo_loss nA net eps (one_pbatch nA s a (ln (prob nA net th s a)) t) [advantage P dyn gamma v s a] th')).
