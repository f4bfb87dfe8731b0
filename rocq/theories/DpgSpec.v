(** Specifications for DpgModel.v: what the policy is worth under given action values. *)
From Coq Require Import List Bool Arith Reals.
From Verif Require Import PyCommon UtilsSpec DistModel LossModel QModel TDModel TDSpec CoreModel CoreSpec PolicyModel PolicySpec LearnModel LearnSpec PgModel PpoSpec DpgModel.
Import ListNotations.
Set Implicit Arguments.
Local Open Scope R_scope.

(** The relaxed greedy action of the logits: softmax(z / tau). *)
Definition relaxed (nA : nat) (tau : R) (z : list R) (a : nat) : R := exp (nth a z 0 / tau) / total (map (fun c => exp (nth c z 0 / tau)) (seq 0 nA)).
(** The mean of the action values h under the relaxed greedy action. *)
Definition worth (nA : nat) (tau : R) (z : list R) (h : nat -> R) : R := expectation nA (relaxed nA tau z) h.
(** The states of a batch with their importance weights. *)
Definition has_states (nS : nat) (b : fbatch nat) (rows : list (nat * R)) : Prop :=
  rows <> [] /\ fb_S b = map fst rows /\ fb_W b = map snd rows /\ forall r, In r rows -> (fst r < nS)%nat.
(** The weight with which a state occurs in a batch: the mean over the rows of the clipped weights of the state. *)
Definition occurs (s : nat) (rows : list (nat * R)) : R := mean (map (fun r => if Nat.eqb (fst r) s then weight (snd r) else 0) rows).
(** jax.grad computes the gradients of the loss. *)
Definition dpg_differentiates (nS nA N : nat) (tau : R) (net : list R -> nat -> list R) (grads : list R -> list R -> fbatch nat -> list R) : Prop :=
  forall th qth b rows, length th = N -> length qth = (nS * nA)%nat -> has_states nS b rows ->
  gradient (fun p => loss_value (dpg_loss nA tau net (table1 nS) qth b p)) th (grads th qth b).
(** The q-function with parameters qth has the values h. *)
Definition has_values (nS nA : nat) (qth : list R) (h : nat -> nat -> R) : Prop :=
  length qth = (nS * nA)%nat /\ forall s a, (s < nS)%nat -> (a < nA)%nat -> q_call_a (Some nA) (one_hot nA) (fun x => x) (table1 nS qth) s a = Ok (h s a).
Definition params_are (f : func) (th : list R) : Prop := f_params f = Node [0%nat] [Node [0%nat] [Leaf th]].

(** * Programs *)

(** Policy updates on batches of at most B rows; target networks of the policy are copies; the other calls concern the critic. *)
Definition dop_ok (nS nA : nat) (dyn : nat -> nat -> nat * R * bool) (gamma lr wl : R) (B : nat) (y : sys) (o : dop) : Prop :=
  match o with
  | DQ o => op_ok nS nA dyn gamma lr wl B o /\ (y_targ y = None -> exists b, o = YUpdate b)
  | DPi b => exists rows, has_states nS b rows /\ (length rows <= B)%nat
  | DSync t => 0 <= t <= 1
  end.
(** The calls that concern the critic. *)
Definition critic_ops (os : list dop) : list yop := flat_map (fun o => match o with DQ o => [o] | _ => [] end) os.
(** A policy update that contains state s. *)
Definition trains_state (s : nat) (o : dop) : Prop := match o with DPi b => In s (fb_S b) | _ => False end.

(** * Infinite programs *)

(** n calls, from the i-th on. *)
Definition stretch (ops : nat -> dop) (i n : nat) : list dop := map ops (seq i n).
(** A policy that uses SGD; its target network was made by copying. *)
Definition policy_ready (nS nA : nat) (lr : R) (sub : nat -> nat -> bool) (d : ddpg) : Prop :=
  l_opt (d_pi d) = sgd lr /\ sub (f_cls (l_func (d_pi d))) (f_cls (d_pi_targ d)) = true /\ shape (f_state (d_pi_targ d)) = shape (f_state (l_func (d_pi d))) /\
  (exists th, params_are (l_func (d_pi d)) th /\ length th = (nS * nA)%nat) /\ exists th, params_are (d_pi_targ d) th /\ length th = (nS * nA)%nat.
(** Any M calls, counted from the start, contain a stretch in which every pair of the critic is updated and then, if there is a target
    network, the target network synchronised. *)
Definition critic_regular (nS nA : nat) (dyn : nat -> nat -> nat * R * bool) (gamma lr wl tau0 : R) (B M : nat) (y : sys) (ops : nat -> dop) : Prop :=
  forall k, exists i n, (k * M <= i)%nat /\ (i + n <= S k * M)%nat /\ one_round nS nA dyn gamma lr wl tau0 B y (critic_ops (stretch ops i n)).
(** The policy is updated in state s again and again. *)
Definition keeps_training (s : nat) (ops : nat -> dop) : Prop := forall K, exists t, (K <= t)%nat /\ trains_state s (ops t).
