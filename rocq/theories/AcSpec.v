(** Specifications for AcModel.v: bootstrapped n-step targets, what an actor-critic does with an episode, values and advantages of a policy. *)
From Coq Require Import List Bool Arith Reals.
From Verif Require Import PyCommon UtilsSpec DistModel LossModel LossSpec QModel TDModel TDSpec CoreModel CoreSpec TracerModel TracerSpec WorkerModel PolicyModel LearnModel PgModel PgSpec AcModel.
Import ListNotations.
Set Implicit Arguments.
Local Open Scope R_scope.

(** r0 + gamma r1 + ... + gamma^(n-1) r(n-1) + gamma^n v(sn), for the rest of an episode; rewards and values after its end are 0. *)
Fixpoint nstep_target (gamma : R) (v : nat -> R) (n : nat) (es : list visit) : R :=
  match n, es with
  | _, [] => 0
  | O, (s, _, _) :: _ => v s
  | S n', (_, _, r) :: es' => r + gamma * nstep_target gamma v n' es'
  end.

(** Loss functions and minus their derivative with respect to the prediction, as a function of label - prediction. *)
Inductive pulls_by : (list R -> list R -> option (list R) -> outcome (option R)) -> (R -> R) -> Prop :=
| pull_mse : pulls_by mse (fun x => x)
| pull_huber : forall delta, 0 < delta -> pulls_by (huber delta) (fun x => Rmax (- delta) (Rmin x delta)).

Section Critic.
Variable N : nat.
Variable vnet : list R -> nat -> R.
(** A value network that is continuously differentiable with the partial derivatives [slope]. *)
Definition smooth_value (slope : list R -> nat -> nat -> R) : Prop := forall s, smooth N (fun w => vnet w s) (fun w i => slope w s i).
(** jax.grad computes the gradients of the loss, for batches of one row. *)
Definition v_differentiates (loss : list R -> list R -> option (list R) -> outcome (option R)) (vgrads : list R -> list R -> fbatch nat -> list R) : Prop :=
  forall w u b s r i s' g, length w = N -> length u = N -> fb_S b = [s] -> fb_W b = [g] -> tb_Rn (fb_t b) = [r] -> tb_In (fb_t b) = [i] -> tb_Snext (fb_t b) = [s'] ->
  gradient (fun p => loss_value (v_loss vnet loss u b p)) w (vgrads w u b).
End Critic.
Definition d_differentiates (loss : list R -> list R -> option (list R) -> outcome (option R)) (dgrads : list R -> list R -> list R) : Prop :=
  forall g v, gradient (fun h => loss_value (loss [g] h None)) [v] (dgrads [g] [v]).

(** The parameters of critic, target network (if there is one) and actor. *)
Record acparams : Type := mkPar { p_w : list R; p_u : option (list R); p_th : list R }.
Definition has_params (y : acsys) (p : acparams) : Prop :=
  f_params (l_func (ac_critic y)) = Node [0%nat] [Node [0%nat] [Leaf (p_w p)]] /\ f_params (l_func (ac_actor y)) = Node [0%nat] [Node [0%nat] [Leaf (p_th p)]] /\
  match ac_targ y, p_u p with None, None => True | Some t, Some u => f_params t = Node [0%nat] [Node [0%nat] [Leaf u]] | _, _ => False end.
(** Both use SGD; the target network, if any, was made by copying. *)
Definition sgd_actor_critic (sub : nat -> nat -> bool) (lrv lrp : R) (y : acsys) : Prop :=
  l_opt (ac_critic y) = sgd lrv /\ l_opt (ac_actor y) = sgd lrp /\
  match ac_targ y with None => True | Some t => sub (f_cls (l_func (ac_critic y))) (f_cls t) = true /\ shape (f_state t) = shape (f_state (l_func (ac_critic y))) end.

Section After.
Variables Nv N : nat.
Variable vnet : list R -> nat -> R.
Variable slope : list R -> nat -> nat -> R.
Variable score : list R -> nat -> nat -> nat -> R.
Variable pull : R -> R.
Variables lrv lrp tau gamma : R.
Variable n : nat.
(** One update from the rest [es] of an episode: with the TD error d of the critic before the update, the critic moves by lrv d grad v, the
    actor by lrp d grad ln pi, and the target network by tau towards the new critic. *)
Definition ac_moved (p : acparams) (es : list visit) : acparams :=
  match es with
  | [] => p
  | (s, a, _) :: _ =>
      let u := match p_u p with Some u => u | None => p_w p end in
      let d := pull (nstep_target gamma (vnet u) n es - vnet (p_w p) s) in
      let w' := map (fun i => nth i (p_w p) 0 + lrv * (d * slope (p_w p) s i)) (seq 0 Nv) in
      mkPar w' (match p_u p with Some u => Some (map (fun i => (1 - tau) * nth i u 0 + tau * nth i w' 0) (seq 0 Nv)) | None => None end)
        (map (fun i => nth i (p_th p) 0 + lrp * (d * score (p_th p) s a i)) (seq 0 N))
  end.
(** All steps of an episode, in order of time. *)
Fixpoint ac_after (p : acparams) (es : list visit) : acparams := match es with [] => p | _ :: es' => ac_after (ac_moved p es) es' end.
End After.

(** * Values of a policy *)
Section Values.
Variable nA : nat.
Variable net : list R -> nat -> list R.
Variable P : list R.
Variable dyn : nat -> nat -> nat -> nat * R * bool.
(** The mean of f over the episodes of at most T steps that begin in state s with action a; the other actions are drawn from the policy. *)
Definition mean_after (th : list R) (T s a : nat) (f : list visit -> R) : R :=
  total (map (fun w => nth w P 0 * (let '(s', r, terminated) := dyn w s a in
    if terminated then f [(s, a, r)] else mean_from nA net P dyn th (T - 1) s' (fun es => f ((s, a, r) :: es)))) (seq 0 (length P))).
(** The value of an action when states have the values v. *)
Definition action_value (gamma : R) (v : nat -> R) (s a : nat) : R :=
  total (map (fun w => nth w P 0 * (let '(s', r, terminated) := dyn w s a in r + (if terminated then 0 else gamma * v s'))) (seq 0 (length P))).
(** v is the value function of the policy. *)
Definition evaluates (gamma : R) (th : list R) (v : nat -> R) : Prop := forall s, v s = expectation nA (prob nA net th s) (action_value gamma v s).
End Values.
(** All episodes that begin in state s end after at most T steps. *)
Fixpoint ends (nA : nat) (P : list R) (dyn : nat -> nat -> nat -> nat * R * bool) (T s : nat) : Prop :=
  match T with
  | O => False
  | S T' => forall w a s' r e, nth w P 0 <> 0 -> (a < nA)%nat -> dyn w s a = (s', r, e) -> e = true \/ ends nA P dyn T' s'
  end.
(** The sum over the steps of an episode of g^t pull(d_t) h(S_t, A_t), where d_t is the difference between the n-step target with the values u and
    the value w(S_t). *)
Fixpoint td_sum (g gamma : R) (u w : nat -> R) (n : nat) (pull : R -> R) (h : nat -> nat -> R) (es : list visit) : R :=
  match es with [] => 0 | (s, a, _) :: es' => pull (nstep_target gamma u n es - w s) * h s a + g * td_sum g gamma u w n pull h es' end.

(** What the loop does with the parameters p in an episode es, with the learning rates lrv and lrp: for all records of es, it runs without
    exceptions, leaves an empty tracer and the parameters [after lrv lrp es]. *)
Definition ac_trains (nA : nat) (vnet : list R -> nat -> R) loss vgrads dgrads (net : list R -> nat -> list R) grads (sub : nat -> nat -> bool) (tau : R) (n : nat) (gamma : R)
    (p : acparams) (after : R -> R -> list visit -> acparams) : Prop :=
  forall lrv lrp es cs y t, es <> [] -> legal_actions nA es -> records es cs -> sgd_actor_critic sub lrv lrp y -> has_params y p -> n_s t = [] -> n_r t = [] ->
  exists y' t', ac_loop nA vnet loss vgrads dgrads net grads sub tau n gamma y t cs = (y', t', Ok tt) /\ n_s t' = [] /\ n_r t' = [] /\
    sgd_actor_critic sub lrv lrp y' /\ has_params y' (after lrv lrp es).
(** The sizes of parameters. *)
Definition par_sized (Nv N : nat) (p : acparams) : Prop := length (p_w p) = Nv /\ length (p_th p) = N /\ match p_u p with Some u => length u = Nv | None => True end.
(** All values of critic and target network are at most M in absolute value. *)
Definition par_bounded (M : R) (p : acparams) : Prop := (forall x, In x (p_w p) -> - M <= x <= M) /\ match p_u p with Some u => forall x, In x u -> - M <= x <= M | None => True end.
