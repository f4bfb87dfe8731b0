(** Specifications for AdamModel.v. *)
From Coq Require Import List Bool Arith Reals.
From Verif Require Import PyCommon UtilsSpec DistModel LossModel QModel TDModel CoreModel CoreSpec LearnModel LearnSpec AdamModel.
Import ListNotations.
Set Implicit Arguments.
Local Open Scope R_scope.

(** The learner l0 after successful updates that used the gradients gs, in this order, whatever the losses were. *)
Inductive trained (l0 : learner) : list gtree -> learner -> Prop :=
| trained_new : trained l0 [] l0
| trained_update : forall (M : Type) gs l gam g fs (m : M) l', trained l0 gs l ->
    gam (f_params (l_func l)) (f_state (l_func l)) (f_key (l_func l)) = Ok (g, fs, m) -> shape g = shape (f_params (l_func l)) ->
    update gam l = (l', Ok m) -> trained l0 (gs ++ [g]) l'.
(** The gradient of one number of the parameters, in all updates so far. *)
Definition gradient_of (g : gtree) (path : list nat) (i : nat) : R :=
  match leaf_at g path with Some x => match nth_error x i with Some (Some v) => v | _ => 0 end | None => 0 end.
Definition history (gs : list gtree) (path : list nat) (i : nat) : list R := map (fun g => gradient_of g path i) gs.
(** The average of a sequence where a number counts b times as much as its successor. *)
Definition faded (b : R) (xs : list R) : R :=
  total (map (fun j => b ^ (length xs - 1 - j) * nth j xs 0) (seq 0 (length xs))) / total (map (fun j => b ^ (length xs - 1 - j)) (seq 0 (length xs))).
(** An infinite run of updates, and the gradients in it. *)
Definition keeps_training (l : nat -> learner) (g : nat -> gtree) : Prop :=
  forall n, exists (M : Type) gam fs (m : M), gam (f_params (l_func (l n))) (f_state (l_func (l n))) (f_key (l_func (l n))) = Ok (g n, fs, m) /\
    shape (g n) = shape (f_params (l_func (l n))) /\ update gam (l n) = (l (S n), Ok m).
(** A table th0 as the q-function, one of the algorithms of C103, the squared or the Huber loss, Adam, batches of at most B true transitions
    of a finite deterministic environment (with any importance weights), and a target network with the values qt. *)
Definition table_setting (nS nA : nat) (dyn : nat -> nat -> nat * R * bool) (gamma : R) (net : list R -> qfun nat R) (target : list R -> list R -> tbatch nat -> outcome (list R)) (val : valuation)
    (loss : list R -> list R -> option (list R) -> outcome (option R)) (grads : list R -> list R -> fbatch nat -> list R) (lr b1 b2 eps : R) (f t : func) (th0 targ : list R) (qt : nat -> nat -> R)
    (rows : nat -> list (nat * nat)) (b : nat -> fbatch nat) (B : nat) : Prop :=
  (1 <= nA)%nat /\ closed nS nA dyn /\ (net = table1 nS \/ net = table2 nS nA) /\ algorithm nA net target val /\ (loss = mse \/ exists delta, 0 < delta /\ loss = huber delta) /\ differentiates nS nA dyn gamma net target loss grads /\
  0 < lr /\ 0 < b1 <= b2 /\ b2 < 1 /\ 0 < eps /\ f_params f = Node [0%nat] [Node [0%nat] [Leaf th0]] /\ length th0 = (nS * nA)%nat /\ f_params t = Node [0%nat] [Node [0%nat] [Leaf targ]] /\ length targ = (nS * nA)%nat /\
  (forall n, genuine nS nA dyn gamma (rows n) (b n) /\ (length (rows n) <= B)%nat) /\
  (forall s c, (s < nS)%nat -> (c < nA)%nat -> q_call_a (Some nA) (one_hot nA) (fun x => x) (net targ) s c = Ok (qt s c)).
