(** Specification vocabulary for parameter trees and learners. *)
From Coq Require Import List Bool Arith Reals.
From Verif Require Import PyCommon UtilsSpec CoreModel.
Import ListNotations.
Local Open Scope R_scope.

(** The shape of a tree of arrays: the arrays replaced by their sizes. *)
Fixpoint shape {X : Type} (t : tree (list X)) : tree nat := match t with Leaf x => Leaf (length x) | Node k cs => Node k (map shape cs) end.
(** The structure alone. *)
Fixpoint bare {L : Type} (t : tree L) : tree unit := match t with Leaf _ => Leaf tt | Node k cs => Node k (map bare cs) end.
(** The leaf at a path. *)
Fixpoint leaf_at {L : Type} (t : tree L) (path : list nat) : option L :=
  match t, path with
  | Leaf x, [] => Some x
  | Node _ cs, i :: path' => match nth_error cs i with Some c => leaf_at c path' | None => None end
  | _, _ => None
  end.
(** Entry i of the array at a path. *)
Definition entry (t : ptree) (path : list nat) (i : nat) : option R := match leaf_at t path with Some x => nth_error x i | None => None end.
(** b differs from a only in the entries, which are f applied to those of a (and c). *)
Definition entrywise (f : R -> R -> R) (a c b : ptree) : Prop :=
  shape b = shape a /\ forall path i x y, entry a path i = Some x -> entry c path i = Some y -> entry b path i = Some (f x y).
Definition nan_somewhere (g : gtree) : Prop := exists path x, leaf_at g path = Some x /\ In None x.
(** The learner after one complete update. *)
Definition fully_updated (l l' : learner) (fs os p : ptree) : Prop :=
  l' = mkLearner (l_kind l) (mkFunc (f_cls (l_func l)) p fs (f_key (l_func l))) (l_opt l) os.
(** The target of an operation on the heap, if any (copies only create new objects). *)
Definition target (o : hop) : option nat := match o with HCopy _ => None | HSoft i _ _ | HParams i _ | HState i _ | HRng i => Some i end.
(** Exponential smoothing of a sequence of values. *)
Definition smoothed (tau x0 : R) (xs : list R) : R :=
  (1 - tau) ^ (length xs) * x0 + tau * total (map (fun i => (1 - tau) ^ (length xs - 1 - i) * nth i xs 0) (seq 0 (length xs))).
(** An optimizer whose state has a structure that depends on that of the parameters only (all of optax). *)
Definition structural (o : optimizer) : Prop := forall p q, bare p = bare q -> bare (o_init o p) = bare (o_init o q).
(** An optimizer that never raises, keeps the structure of its state and returns updates of the shape of the parameters. *)
Definition lawful (o : optimizer) : Prop :=
  forall g os p, exists u os', o_update o g os p = Ok (u, os') /\ shape u = shape p /\ bare os' = bare os.
(** Only the random key has moved. *)
Definition same_but_key (l l' : learner) : Prop :=
  l_kind l' = l_kind l /\ l_opt l' = l_opt l /\ l_ostate l' = l_ostate l /\
  f_cls (l_func l') = f_cls (l_func l) /\ f_params (l_func l') = f_params (l_func l) /\ f_state (l_func l') = f_state (l_func l).
(** f.soft_update(g, tau) for each g of a list in turn, stopping at the first exception. *)
Fixpoint soft_updates (sub : nat -> nat -> bool) (tau : R) (f : func) (gs : list func) : func * outcome unit :=
  match gs with [] => (f, Ok tt) | g :: gs' => match soft_update sub f g tau with (f', Ok _) => soft_updates sub tau f' gs' | (f', Err e) => (f', Err e) end end.
