(** Specifications for PgModel.v: episodes of a stochastic environment under a stochastic policy, their probabilities, expected returns,
    differentiable policies. *)
From Coq Require Import List Bool Arith Reals.
From Verif Require Import PyCommon UtilsSpec DistModel LossModel QModel TDModel TDSpec CoreModel TracerModel WorkerModel PolicyModel LearnModel PgModel.
Import ListNotations.
Set Implicit Arguments.
Local Open Scope R_scope.

(** A step of an episode: state, action, reward. *)
Definition visit : Type := (nat * nat * R)%type.
(** r0 + gamma r1 + gamma^2 r2 + ... *)
Fixpoint discounted (gamma : R) (es : list visit) : R := match es with [] => 0 | (_, _, r) :: es' => r + gamma * discounted gamma es' end.
(** The calls that record an episode: only the last one is done; any log-propensities. *)
Fixpoint records (es : list visit) (cs : list (call nat nat)) : Prop :=
  match es, cs with
  | [(s, a, r)], [c] => c_s c = s /\ c_a c = a /\ c_r c = r /\ c_done c = true /\ c_logp c <= 0
  | (s, a, r) :: es', c :: cs' => c_s c = s /\ c_a c = a /\ c_r c = r /\ c_done c = false /\ c_logp c <= 0 /\ records es' cs'
  | _, _ => False
  end.
Definition legal_actions (nA : nat) (es : list visit) : Prop := forall s a r, In (s, a, r) es -> (a < nA)%nat.

(** * Curves of parameters *)

(** Parameters c u of size N depend differentiably on u, with velocity x at t. *)
Definition velocity (N : nat) (c : R -> list R) (t : R) (x : nat -> R) : Prop :=
  (forall u, length (c u) = N) /\ forall i, (i < N)%nat -> derivable_pt_lim (fun u => nth i (c u) 0) t (x i).
(** F is continuously differentiable, with partial derivatives dF. *)
Definition smooth (N : nat) (F : list R -> R) (dF : list R -> nat -> R) : Prop :=
  (forall c t x, velocity N c t x -> derivable_pt_lim (fun u => F (c u)) t (total (map (fun i => dF (c t) i * x i) (seq 0 N)))) /\
  forall c t x i, (i < N)%nat -> velocity N c t x -> continuity_pt (fun u => dF (c u) i) t.

Section Policy.
Variables nA N : nat.
Variable net : list R -> nat -> list R.
(** The probability of action a in state s. *)
Definition prob (th : list R) (s a : nat) : R := boltzmann nA (net th s) a.
(** A network with nA outputs, and whose log-probabilities are continuously differentiable with the partial derivatives [score]. *)
Definition smooth_policy (score : list R -> nat -> nat -> nat -> R) : Prop :=
  (1 <= nA)%nat /\ (forall th s, length th = N -> length (net th s) = nA) /\
  forall s a, (a < nA)%nat -> smooth N (fun th => ln (prob th s a)) (fun th i => score th s a i).
(** jax.grad computes the gradients of the loss, for batches of one row. *)
Definition pg_differentiates (grads : list R -> fbatch nat -> list R -> list R) : Prop :=
  forall th b g s a w, length th = N -> (a < nA)%nat -> fb_S b = [s] -> fb_A b = [one_hot nA a] -> fb_W b = [w] ->
  gradient (fun p => loss_value (pg_loss nA net b [g] p)) th (grads th b [g]).

(** * Episodes *)

(** What an action does in a state depends on a noise drawn with the probabilities P: next state, reward, terminated. *)
Variable P : list R.
Variable dyn : nat -> nat -> nat -> nat * R * bool.
(** The mean of f over the episodes of at most T steps that begin in state s; the actions are drawn from the policy. *)
Fixpoint mean_from (th : list R) (T s : nat) (f : list visit -> R) : R :=
  match T with
  | O => f []
  | S T' => expectation nA (prob th s) (fun a => total (map (fun w => nth w P 0 *
      (let '(s', r, terminated) := dyn w s a in
       if terminated then f [(s, a, r)] else mean_from th T' s' (fun es => f ((s, a, r) :: es)))) (seq 0 (length P))))
  end.
(** The first state is drawn with the probabilities rho. *)
Definition mean_episode (rho : list R) (th : list R) (T : nat) (f : list visit -> R) : R :=
  total (map (fun s => nth s rho 0 * mean_from th T s f) (seq 0 (length rho))).
Definition expected_return (gamma : R) (rho : list R) (T : nat) (th : list R) : R := mean_episode rho th T (discounted gamma).
End Policy.

(** What the loop does with the policy's parameters th in an episode es, with learning rate lr: for all records of es, it runs without
    exceptions, leaves an empty tracer and the parameters [after lr es]. *)
Definition trains (nA : nat) (net : list R -> nat -> list R) (grads : list R -> fbatch nat -> list R -> list R) (gamma : R) (th : list R)
    (after : R -> list visit -> list R) : Prop :=
  forall lr es cs l t, es <> [] -> legal_actions nA es -> records es cs -> l_opt l = sgd lr -> f_params (l_func l) = Node [0%nat] [Node [0%nat] [Leaf th]] -> m_list t = [] ->
  exists l' t', rf_loop nA net grads gamma l t cs = (l', t', Ok tt) /\ m_list t' = [] /\ l_opt l' = sgd lr /\
    f_params (l_func l') = Node [0%nat] [Node [0%nat] [Leaf (after lr es)]].
(** The sum of h(S_t, A_t) over the steps of an episode, and the sum of g^t G_t h(S_t, A_t), where G_t is the discounted return from step t on. *)
Fixpoint step_sum (h : nat -> nat -> R) (es : list visit) : R := match es with [] => 0 | (s, a, _) :: es' => h s a + step_sum h es' end.
Fixpoint return_sum (g gamma : R) (h : nat -> nat -> R) (es : list visit) : R :=
  match es with [] => 0 | (s, a, _) :: es' => discounted gamma es * h s a + g * return_sum g gamma h es' end.
(** depth s is the time step at which state s is seen. *)
Definition layered (P : list R) (dyn : nat -> nat -> nat -> nat * R * bool) (rho : list R) (depth : nat -> nat) : Prop :=
  (forall s, nth s rho 0 <> 0 -> depth s = 0%nat) /\
  forall w s a s' r, nth w P 0 <> 0 -> dyn w s a = (s', r, false) -> depth s' = S (depth s).
