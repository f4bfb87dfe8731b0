(** Specifications for CatModel.v: distributions on the atoms, their projected Bellman equations for a data set. *)
From Coq Require Import List Bool Arith Reals.
From Verif Require Import PyCommon UtilsSpec DistModel DistSpec LossModel TDModel TDSpec CoreModel CoreSpec LearnModel MbModel CatModel.
Import ListNotations.
Set Implicit Arguments.
Local Open Scope R_scope.

(** A recorded transition: state, action, (n-step) reward, bootstrap factor, next state, next action. *)
Record row : Type := mk_r { w_s : nat; w_a : nat; w_r : R; w_in : R; w_next : nat; w_anext : nat }.
Definition rows_in (nS nA : nat) (gamma : R) (rows : list row) : Prop :=
  forall x, In x rows -> (w_s x < nS)%nat /\ (w_a x < nA)%nat /\ (w_next x < nS)%nat /\ (w_anext x < nA)%nat /\ 0 <= w_in x <= gamma.
Definition at_pair (s a : nat) (x : row) : bool := Nat.eqb (w_s x) s && Nat.eqb (w_a x) a.
Definition all_pairs (nS nA : nat) (rows : list row) : Prop := forall s a, (s < nS)%nat -> (a < nA)%nat -> exists x, In x rows /\ w_s x = s /\ w_a x = a.
(** The batch with these rows; importance weights are arbitrary, and so are the next actions unless Sarsa uses them. *)
Definition holds_rows (nA : nat) (alg : calg) (rows : list row) (b : fbatch nat) : Prop :=
  fb_S b = map w_s rows /\ fb_A b = map (fun x => one_hot nA (w_a x)) rows /\ length (fb_W b) = length rows /\ tb_Rn (fb_t b) = map w_r rows /\
  tb_In (fb_t b) = map w_in rows /\ tb_Snext (fb_t b) = map w_next rows /\ (alg = CSarsa -> tb_Anext (fb_t b) = map (fun x => one_hot nA (w_anext x)) rows).

(** The mean over the rows of a pair. *)
Definition pair_sum (s a : nat) (h : row -> R) (rows : list row) : R := total (map (fun x => if at_pair s a x then h x else 0) rows).
Definition pair_mean (s a : nat) (h : row -> R) (rows : list row) : R := pair_sum s a h rows / pair_sum s a (fun _ => 1) rows.

(** Distributions on K atoms. *)
Definition is_dist (K : nat) (p : nat -> R) : Prop := (forall k, (k < K)%nat -> 0 <= p k) /\ total (map p (seq 0 K)) = 1.
Definition ev (K : nat) (p h : nat -> R) : R := total (map (fun k => p k * h k) (seq 0 K)).
(** The distribution of the clipped r + g*Z, its masses divided between the two nearest atoms in proportion. *)
Definition proj (K : nat) (lo hi r g : R) (p : nat -> R) (k : nat) : R :=
  ev K p (fun j => hat ((Rmin (Rmax (g * atom K lo hi j + r) (atom K lo hi 0)) (atom K lo hi (K - 1)) - atom K lo hi k) / ((hi - lo) / INR K))).
(** The distributions eta solve the projected distributional Bellman equations of the data. *)
Definition data_dists (nS nA K : nat) (lo hi : R) (rows : list row) (eta : nat -> nat -> nat -> R) : Prop :=
  forall s a, (s < nS)%nat -> (a < nA)%nat -> is_dist K (eta s a) /\ forall k, (k < K)%nat -> eta s a k = pair_mean s a (fun x => proj K lo hi (w_r x) (w_in x) (eta (w_next x) (w_anext x)) k) rows.
(** Wasserstein distance at most D: expectations of functions with slope at most one differ by at most D. *)
Definition near (K : nat) (lo hi D : R) (p q : nat -> R) : Prop :=
  forall h, (forall i j, (i < K)%nat -> (j < K)%nat -> Rabs (h i - h j) <= Rabs (atom K lo hi i - atom K lo hi j)) -> Rabs (ev K p h - ev K q h) <= D.
(** The action values of the data. *)
Definition data_q (nS nA : nat) (rows : list row) (q : nat -> nat -> R) : Prop :=
  forall s a, (s < nS)%nat -> (a < nA)%nat -> q s a = pair_mean s a (fun x => w_r x + w_in x * q (w_next x) (w_anext x)) rows.
(** The interval contains everything that can be bootstrapped from it. *)
Definition range_fits (K : nat) (lo hi : R) (rows : list row) : Prop :=
  forall x, In x rows -> atom K lo hi 0 <= w_in x * atom K lo hi 0 + w_r x /\ w_in x * atom K lo hi (K - 1) + w_r x <= atom K lo hi (K - 1).

(** Probabilities and means of the table of logits w. *)
Definition logit (nA K : nat) (w : list R) (s a k : nat) : R := nth ((s * nA + a) * K + k) w 0.
Definition prob (nA K : nat) (w : list R) (s a k : nat) : R := exp (logit nA K w s a k) / total (map (fun j => exp (logit nA K w s a j)) (seq 0 K)).
Definition mean_of (nA K : nat) (lo hi : R) (w : list R) (s a : nat) : R := ev K (prob nA K w s a) (atom K lo hi).
(** Probabilities below 1e-16 are lifted to it, before they are normalised again. *)
Definition floored (K : nat) (m : nat -> R) (k : nat) : R := Rmax (m k) (/ 10 ^ 16) / total (map (fun j => Rmax (m j) (/ 10 ^ 16)) (seq 0 K)).
(** The target of a row. *)
Definition row_target (nA K : nat) (lo hi : R) (wt : list R) (x : row) (k : nat) : R := floored K (proj K lo hi (w_r x) (w_in x) (prob nA K wt (w_next x) (w_anext x))) k.
(** The next actions of the rows are the ones that the algorithm uses: any for Sarsa, the only greedy ones of q_targ for QLearning. *)
Definition uses_next (nA K : nat) (lo hi : R) (alg : calg) (wt : list R) (rows : list row) : Prop :=
  match alg with
  | CSarsa => True
  | CQ => forall x a, In x rows -> (a < nA)%nat -> a <> w_anext x -> mean_of nA K lo hi wt (w_next x) a < mean_of nA K lo hi wt (w_next x) (w_anext x)
  end.

(** q holds the logits w and q_targ the logits wt (q_targ may be q itself); SGD with learning rate lr. *)
Definition nets (nS nA K : nat) (lr : R) (sub : nat -> nat -> bool) (y : csys) (w wt : list R) : Prop :=
  l_opt (c_q y) = sgd lr /\ f_params (l_func (c_q y)) = Node [0%nat] [Node [0%nat] [Leaf w]] /\ length w = (nS * nA * K)%nat /\ length wt = (nS * nA * K)%nat /\
  match c_targ y with
  | None => wt = w
  | Some f => f_params f = Node [0%nat] [Node [0%nat] [Leaf wt]] /\ sub (f_cls (l_func (c_q y))) (f_cls f) = true /\ shape (f_state f) = shape (f_state (l_func (c_q y)))
  end.
(** g is the gradient of the loss for this batch, for all q_targ with these greedy actions. *)
Definition ce_grads (nS nA K : nat) (lo hi : R) (alg : calg) (g : list R -> fbatch nat -> list R -> list R) (rows : list row) (b : fbatch nat) : Prop :=
  forall targ w, length targ = (nS * nA * K)%nat -> length w = (nS * nA * K)%nat -> uses_next nA K lo hi alg targ rows -> gradient (fun x => loss_value (cd_loss nS nA K lo hi alg targ b x)) w (g targ b w).
(** The greedy actions of q at the next states are the ones of the rows, by a margin. *)
Definition greedy_by (nA : nat) (margin : R) (rows : list row) (q : nat -> nat -> R) : Prop :=
  forall x a, In x rows -> (a < nA)%nat -> a <> w_anext x -> q (w_next x) a + margin <= q (w_next x) (w_anext x).
(** One round: n updates on b, then q_targ.soft_update(q, tau=1). *)
Definition round_of (b : fbatch nat) (n : nat) : list cop := repeat (CU b) n ++ [CSync 1].
(** P holds after M rounds, if each of them is long enough; how long may depend on what happened before. *)
Fixpoint after_rounds (step : csys -> nat -> csys -> Prop) (M : nat) (P : csys -> Prop) (y : csys) : Prop :=
  match M with O => P y | S M' => exists N, forall n, (N <= n)%nat -> exists y', step y n y' /\ after_rounds step M' P y' end.
(** The optimal action values q of the data; v holds the largest of each state. *)
Definition optimal_q (nS nA : nat) (rows : list row) (q : nat -> nat -> R) (v : nat -> R) : Prop :=
  (forall s, (s < nS)%nat -> is_maximum nA (q s) (v s)) /\ forall s a, (s < nS)%nat -> (a < nA)%nat -> q s a = pair_mean s a (fun x => w_r x + w_in x * v (w_next x)) rows.
(** The same transitions, with other next actions. *)
Definition with_next (an : nat -> nat) (x : row) : row := mk_r (w_s x) (w_a x) (w_r x) (w_in x) (w_next x) (an (w_next x)).
(** q_targ has two greedy actions in some next state. *)
Definition tied (nA K : nat) (lo hi : R) (rows : list row) (y : csys) : Prop :=
  exists f wt x a a', c_targ y = Some f /\ f_params f = Node [0%nat] [Node [0%nat] [Leaf wt]] /\ In x rows /\ (a < nA)%nat /\ (a' < nA)%nat /\ a <> a' /\
  mean_of nA K lo hi wt (w_next x) a = mean_of nA K lo hi wt (w_next x) a' /\ forall a'', (a'' < nA)%nat -> mean_of nA K lo hi wt (w_next x) a'' <= mean_of nA K lo hi wt (w_next x) a.
(** Like after_rounds, but nothing is said once [tie] holds at the start of a round. *)
Fixpoint after_rounds_unless (tie : csys -> Prop) (step : csys -> nat -> csys -> Prop) (M : nat) (P : csys -> Prop) (y : csys) : Prop :=
  match M with O => P y | S M' => tie y \/ exists N, forall n, (N <= n)%nat -> exists y', step y n y' /\ after_rounds_unless tie step M' P y' end.
