(** Model of the training loops with double estimators: coax/td_learning/_doubleqlearning.py:99-134 and
    coax/td_learning/_clippeddoubleqlearning.py:105-333, used as in doc/examples/frozen_lake/double_qlearning.py:15-54 (one learner and
    its target network) and doc/examples/stubs/td3.py:37-83 (two learners that share the list of their target networks; a coin decides
    which of them is updated).

    Simplifications: those of LearnModel.v; Discrete actions, so that there are no policies in the targets; function_state is unused. *)
From Coq Require Import List Bool Arith Reals.
From Verif Require Import PyCommon DistModel QModel TDModel CoreModel LearnModel.
Import ListNotations.
Set Implicit Arguments.
Local Open Scope R_scope.

Section Targets.
Variable nA : nat.
Variable net : list R -> qfun nat R.
(** _doubleqlearning.py:99-134: greedy with respect to target_params['q_targ'], evaluated with target_params['q'] (the parameters of q at
    the time of the call, which are not differentiated). *)
Definition target_double (th0 targ : list R) (b : tbatch nat) : outcome (list R) := double_q (Some nA) (one_hot nA) (fun x => x) (fun x => x) nA (net targ) (net th0) b.
(** _clippeddoubleqlearning.py:229-333: the least of the values of all target networks at the greedy actions of all target networks. *)
Definition target_clipped (targs : list (list R)) (b : tbatch nat) : outcome (list R) :=
  clipped_double_q (Some nA) (one_hot nA) (fun x => x) (map (fun t => (net t, fun x : R => x)) targs) b.
End Targets.

(** * Several learners *)
(** Calls of a program: qlearning_i.update(batch), q_targ_i.soft_update(q_i, tau=tau). *)
Inductive cop : Type := CUpdate (i : nat) (b : fbatch nat) | CSync (i : nat) (tau : R).
(** _clippeddoubleqlearning.py:211-218 [target_params], key 'q_targ': the parameters of all q-functions in q_targ_list. *)
Fixpoint unwraps (ps : list ptree) : option (list (list R)) :=
  match ps with
  | [] => Some []
  | p :: ps' => match unwrap p, unwraps ps' with Some th, Some ths => Some (th :: ths) | _, _ => None end
  end.
Definition put {A : Type} (i : nat) (x : A) (l : list A) : list A := firstn i l ++ x :: skipn (S i) l.
Section Several.
Variable nA : nat.
Variable net : list R -> qfun nat R.
Variable loss : list R -> list R -> option (list R) -> outcome (option R).
(** jax.grad of the loss: own parameters, parameters of the target networks, batch. *)
Variable cgrads : list R -> list (list R) -> fbatch nat -> list R.
Variable sub : nat -> nat -> bool.
(** stubs/td3.py:37-47, 65-83: every learner has the same q_targ_list, with the target network of each learner (or the learner's own
    q-function if it has none) in it. *)
Definition cstep (ys : list sys) (o : cop) : list sys * outcome unit :=
  match o with
  | CUpdate i b =>
      match nth_error ys i with
      | None => (ys, Err EIndex)
      | Some y =>
          match unwraps (map targ_params ys) with
          | None => (ys, Err EKey)
          | Some targs => let (y', r) := ystep nA net (fun _ _ => target_clipped nA net targs) loss (fun th _ => cgrads th targs) sub y (YUpdate b) in (put i y' ys, r)
          end
      end
  | CSync i tau =>
      match nth_error ys i with
      | None => (ys, Err EIndex)
      | Some y => let (y', r) := ystep nA net (fun _ _ => target_clipped nA net []) loss (fun th _ => cgrads th []) sub y (YSync tau) in (put i y' ys, r)
      end
  end.
Fixpoint crun (ys : list sys) (os : list cop) : list sys * outcome unit :=
  match os with
  | [] => (ys, Ok tt)
  | o :: os' => match cstep ys o with (ys1, Ok _) => crun ys1 os' | (ys1, Err e) => (ys1, Err e) end
  end.
End Several.
