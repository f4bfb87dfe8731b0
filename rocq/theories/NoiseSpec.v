(** Specifications for learning in stochastic environments (model: LearnModel.v): noise, luck, means over the noise. *)
From Coq Require Import List Bool Arith Reals.
From Verif Require Import PyCommon UtilsSpec DistModel DistSpec LossModel LossSpec QModel TDModel TDSpec CoreModel CoreSpec LearnModel LearnSpec.
Import ListNotations.
Set Implicit Arguments.
Local Open Scope R_scope.

Section Noise.
Variables nS nA nW : nat.
(** What an action does in a state depends on a noise 0, ..., nW - 1: [dyn w] is a deterministic environment. *)
Variable dyn : nat -> nat -> nat -> nat * R * bool.
Definition all_closed : Prop := forall w, (w < nW)%nat -> closed nS nA (dyn w).

(** The rows of a batch are transitions that the environment can make; row i with the i-th of the noises ws. *)
Definition sampled (gamma : R) (rows : list (nat * nat)) (ws : list nat) (b : fbatch nat) : Prop :=
  rows <> [] /\ fb_S b = map fst rows /\ fb_A b = map (fun r => one_hot nA (snd r)) rows /\ length (fb_W b) = length rows /\
  length (tb_Rn (fb_t b)) = length rows /\ length (tb_In (fb_t b)) = length rows /\ length (tb_Snext (fb_t b)) = length rows /\ length ws = length rows /\
  forall i s a s', nth_error rows i = Some (s, a) -> nth_error (tb_Snext (fb_t b)) i = Some s' ->
    let w := nth i ws 0%nat in
    (w < nW)%nat /\ (s < nS)%nat /\ (a < nA)%nat /\ (s' < nS)%nat /\ nth i (tb_Rn (fb_t b)) 0 = reward (dyn w) s a /\
    (if ends (dyn w) s a then nth i (tb_In (fb_t b)) 0 = 0 else nth i (tb_In (fb_t b)) 0 = gamma /\ s' = next (dyn w) s a).
(** [grads] computes the gradients of the loss for batches of the environment and tables of the right size. *)
Definition noisy_differentiates (gamma : R) (net : list R -> qfun nat R) (target : list R -> list R -> tbatch nat -> outcome (list R))
    (loss : list R -> list R -> option (list R) -> outcome (option R)) (grads : list R -> list R -> fbatch nat -> list R) : Prop :=
  forall th targ rows ws b, length th = (nS * nA)%nat -> length targ = (nS * nA)%nat -> sampled gamma rows ws b ->
  gradient (fun p => loss_value (q_loss (Some nA) net target loss th targ b p)) th (grads th targ b).
Definition noisy_setting (gamma : R) (net : list R -> qfun nat R) (target : list R -> list R -> tbatch nat -> outcome (list R)) (val : valuation)
    (loss : list R -> list R -> option (list R) -> outcome (option R)) (grads : list R -> list R -> fbatch nat -> list R) (lr wl cl M : R) (B : nat) : Prop :=
  (1 <= nA)%nat /\ (1 <= nW)%nat /\ all_closed /\ 0 <= gamma <= 1 /\ (net = table1 nS \/ net = table2 nS nA) /\ algorithm nA net target val /\ pulls loss M cl /\
  noisy_differentiates gamma net target loss grads /\ 0 < lr /\ 0 < wl /\ lr * wl <= 1 /\ (1 <= B)%nat.

(** * Luck *)

(** What row (s, a) with noise w is worth, if states are valued by val from q. *)
Definition worth (gamma : R) (val : valuation) (q : nat -> nat -> R) (w s a : nat) (x : R) : Prop :=
  exists m, val (next (dyn w) s a) (q (next (dyn w) s a)) m /\ x = reward (dyn w) s a + (if ends (dyn w) s a then 0 else gamma * m).
(** hi (lo) is an upper (lower) bound of the worth, whatever the noise. *)
Definition at_most (gamma : R) (val : valuation) (hi : nat -> nat -> R) : Prop := forall s a w, (s < nS)%nat -> (a < nA)%nat -> (w < nW)%nat -> exists x, worth gamma val hi w s a x /\ x <= hi s a.
Definition at_least (gamma : R) (val : valuation) (lo : nat -> nat -> R) : Prop := forall s a w, (s < nS)%nat -> (a < nA)%nat -> (w < nW)%nat -> exists x, worth gamma val lo w s a x /\ lo s a <= x.
(** The values when the noise is always the best one, and when it is always the worst one. *)
Definition best_luck (gamma : R) (val : valuation) (q : nat -> nat -> R) : Prop := at_most gamma val q /\ forall s a, (s < nS)%nat -> (a < nA)%nat -> exists w, (w < nW)%nat /\ worth gamma val q w s a (q s a).
Definition worst_luck (gamma : R) (val : valuation) (q : nat -> nat -> R) : Prop := at_least gamma val q /\ forall s a, (s < nS)%nat -> (a < nA)%nat -> exists w, (w < nW)%nat /\ worth gamma val q w s a (q s a).
(** The q-function with these parameters returns numbers between lo - D and hi + D. *)
Definition between (net : list R -> qfun nat R) (p : ptree) (lo hi : nat -> nat -> R) (D : R) : Prop :=
  exists th, p = Node [0%nat] [Node [0%nat] [Leaf th]] /\ length th = (nS * nA)%nat /\
  forall s a, (s < nS)%nat -> (a < nA)%nat -> exists x, q_call_a (Some nA) (one_hot nA) (fun x => x) (net th) s a = Ok x /\ lo s a - D <= x <= hi s a + D.
(** Programs: updates on batches of at most B rows, with any noise, and synchronisations. *)
Definition noisy_op (gamma lr wl : R) (B : nat) (o : yop) : Prop :=
  match o with
  | YUpdate b => exists rows ws, sampled gamma rows ws b /\ weights_fit lr wl b /\ (length rows <= B)%nat
  | YSync tau => 0 <= tau <= 1
  end.
Definition noisy_round (gamma lr wl tau0 : R) (B : nat) (y : sys) (os : list yop) : Prop :=
  (forall o, In o os -> noisy_op gamma lr wl B o) /\
  match y_targ y with
  | None => covers nS nA os /\ forall o, In o os -> exists b, o = YUpdate b
  | Some _ => exists os1 tau os2, os = os1 ++ YSync tau :: os2 /\ covers nS nA os1 /\ tau0 <= tau
  end.

(** * Means *)

(** The mean of f over n independent noises, each with the probabilities P. *)
Fixpoint mean_over (P : list R) (n : nat) (f : list nat -> R) : R :=
  match n with
  | O => f []
  | S n' => total (map (fun w => nth w P 0 * mean_over P n' (fun ws => f (w :: ws))) (seq 0 (length P)))
  end.
(** The Bellman equation with the mean over the noise. *)
Definition mean_bellman (P : list R) (gamma : R) (val : valuation) (q : nat -> nat -> R) : Prop := forall s a, (s < nS)%nat -> (a < nA)%nat ->
  exists x : nat -> R, (forall w, (w < nW)%nat -> worth gamma val q w s a (x w)) /\ q s a = total (map (fun w => nth w P 0 * x w) (seq 0 nW)).
(** What is decided before the noise is drawn: the pairs and the weights of the batches, the synchronisations. *)
Inductive decision : Type := DUpdate (rows : list (nat * nat)) (W : list R) | DSync (tau : R).
Definition noises (ds : list decision) : nat := list_sum (map (fun d => match d with DUpdate rows _ => length rows | DSync _ => 0%nat end) ds).
(** The program that follows the decisions when the noises are ws: a fresh one for each row. *)
Inductive follows (gamma : R) : list decision -> list nat -> list yop -> Prop :=
| follows_nil : follows gamma [] [] []
| follows_update : forall rows ws b ds ws' os, sampled gamma rows ws b -> follows gamma ds ws' os -> follows gamma (DUpdate rows (fb_W b) :: ds) (ws ++ ws') (YUpdate b :: os)
| follows_sync : forall tau ds ws os, follows gamma ds ws os -> follows gamma (DSync tau :: ds) ws (YSync tau :: os).
Definition decision_ok (lr wl : R) (B : nat) (d : decision) : Prop :=
  match d with
  | DUpdate rows W => rows <> [] /\ (length rows <= B)%nat /\ length W = length rows /\ (forall s a, In (s, a) rows -> (s < nS)%nat /\ (a < nA)%nat) /\
      forall w, In w W -> wl <= Rmax (1/10) (Rmin w 10) /\ lr * Rmax (1/10) (Rmin w 10) <= 1
  | DSync tau => 0 <= tau <= 1
  end.
Definition decides (ds : list decision) (s a : nat) : Prop := exists rows W, In (DUpdate rows W) ds /\ In (s, a) rows.
Definition decision_round (lr wl tau0 : R) (B : nat) (y : sys) (ds : list decision) : Prop :=
  (forall d, In d ds -> decision_ok lr wl B d) /\
  match y_targ y with
  | None => (forall s a, (s < nS)%nat -> (a < nA)%nat -> decides ds s a) /\ forall d, In d ds -> exists rows W, d = DUpdate rows W
  | Some _ => exists ds1 tau ds2, ds = ds1 ++ DSync tau :: ds2 /\ (forall s a, (s < nS)%nat -> (a < nA)%nat -> decides ds1 s a) /\ tau0 <= tau
  end.
End Noise.
(** Lists of n noises below nW. *)
Definition noise_list (nW n : nat) (ws : list nat) : Prop := length ws = n /\ forall w, In w ws -> (w < nW)%nat.
