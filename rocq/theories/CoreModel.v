(** Model of the parts of coax/_core/base_func.py, coax/td_learning/_base.py, coax/policy_objectives/_base.py and
    coax/model_updaters/_model_updater.py that hold and replace parameters: pytrees, the setters with their structure checks,
    [soft_update], [copy], [update], [apply_grads].  Networks and optimizers are arbitrary functions; floats are exact reals. *)
From Coq Require Import List Bool Arith Reals.
From Verif Require Import PyCommon UtilsModel DistModel.
Import ListNotations.
Set Implicit Arguments.
Local Open Scope R_scope.

(** * Pytrees *)

(** A pytree: a leaf, or a container with its children; [ks] stands for the kind of container and its (sorted) keys.  None is a
    container without children. *)
Inductive tree (L : Type) : Type := Leaf (x : L) | Node (ks : list nat) (cs : list (tree L)).
Arguments Leaf {L} x.
Arguments Node {L} ks cs.

Fixpoint keys_eqb (a b : list nat) : bool := match a, b with [], [] => true | x :: a', y :: b' => Nat.eqb x y && keys_eqb a' b' | _, _ => false end.
(** jax.tree_util.tree_structure(a) == jax.tree_util.tree_structure(b).  Leaves are not looked at. *)
Fixpoint same_structure {L M : Type} (a : tree L) (b : tree M) {struct a} : bool :=
  match a, b with
  | Leaf _, Leaf _ => true
  | Node k cs, Node k' ds =>
      keys_eqb k k' && (fix go (cs : list (tree L)) (ds : list (tree M)) : bool :=
        match cs, ds with [], [] => true | c :: cs', d :: ds' => same_structure c d && go cs' ds' | _, _ => false end) cs ds
  | _, _ => false
  end.
(** jax.tree_map(f, a, b): the structure of [a] has to be a prefix of that of [b].  A container of [b] in the place of a leaf of [a] is
    handed to f, whose arithmetic raises TypeError; other mismatches raise ValueError. *)
Fixpoint tmap2 {L M N : Type} (f : L -> M -> outcome N) (a : tree L) (b : tree M) {struct a} : outcome (tree N) :=
  match a, b with
  | Leaf x, Leaf y => bind (f x y) (fun z => Ok (Leaf z))
  | Leaf _, Node _ _ => Err EType
  | Node _ _, Leaf _ => Err EValue
  | Node k cs, Node k' ds =>
      if keys_eqb k k' then
        bind ((fix go (cs : list (tree L)) (ds : list (tree M)) : outcome (list (tree N)) :=
          match cs, ds with
          | [], [] => Ok []
          | c :: cs', d :: ds' => bind (tmap2 f c d) (fun e => bind (go cs' ds') (fun es => Ok (e :: es)))
          | _, _ => Err EValue
          end) cs ds) (fun es => Ok (Node k es))
      else Err EValue
  end.
(** jax.tree_util.tree_leaves. *)
Fixpoint leaves {L : Type} (t : tree L) : list L := match t with Leaf x => [x] | Node _ cs => flat_map leaves cs end.

(** Array leaves of rank 1, with numpy broadcasting of arrays of one element; other shapes raise. *)
Definition jop (h : R -> R -> R) (x y : list R) : outcome (list R) :=
  if Nat.eqb (length x) (length y) then Ok (zipw h x y)
  else match x, y with
       | [a], _ => Ok (map (h a) y)
       | _, [b] => Ok (map (fun a => h a b) x)
       | _, _ => Err EType
       end.
Definition ptree : Type := tree (list R).
(** Gradients may contain nan (None). *)
Definition gtree : Type := tree (list (option R)).

(** * BaseFunc *)

(** base_func.py:55-84: class, params, function_state and the number of times the random key has been split
    (_base/mixins/_random_state.py:19-22). *)
Record func : Type := mkFunc { f_cls : nat; f_params : ptree; f_state : ptree; f_key : nat }.
Definition with_params (f : func) (p : ptree) : func := mkFunc (f_cls f) p (f_state f) (f_key f).
Definition with_state (f : func) (s : ptree) : func := mkFunc (f_cls f) (f_params f) s (f_key f).
(** RandomStateMixin.rng. *)
Definition next_key (f : func) : func := mkFunc (f_cls f) (f_params f) (f_state f) (S (f_key f)).
(** base_func.py:121-125 and 146-152: the setters.  A method returns the new object and the outcome. *)
Definition set_params (f : func) (p : ptree) : func * outcome unit := if same_structure p (f_params f) then (with_params f p, Ok tt) else (f, Err EType).
Definition set_state (f : func) (s : ptree) : func * outcome unit := if same_structure s (f_state f) then (with_state f s, Ok tt) else (f, Err EType).
(** base_func.py:81-84. *)
Definition soft_leaf (tau : R) (a b : list R) : outcome (list R) := jop Rplus (map (Rmult (1 - tau)) a) (map (Rmult tau) b).
Definition soft_update_func (tau : R) (old new : ptree) : outcome ptree := tmap2 (soft_leaf tau) old new.
(** base_func.py:86-112 [soft_update]; [sub c d]: class c is d or derived from d. *)
Definition soft_update (sub : nat -> nat -> bool) (self other : func) (tau : R) : func * outcome unit :=
  if sub (f_cls other) (f_cls self) then
    match soft_update_func tau (f_params self) (f_params other) with
    | Err e => (self, Err e)
    | Ok p =>
        match set_params self p with
        | (self, Err e) => (self, Err e)
        | (self, Ok _) =>
            match soft_update_func tau (f_state self) (f_state other) with
            | Err e => (self, Err e)
            | Ok s => set_state self s
            end
        end
    end
  else (self, Err EType).

(** Several objects; an object is a place in the heap.  _base/mixins/_copy.py: copy(deep=False) and copy(deep=True) make a new object
    with the same attributes (params and function_state are never mutated, only replaced). *)
Definition heap : Type := list func.
Inductive hop : Type := HCopy (i : nat) | HSoft (i j : nat) (tau : R) | HParams (i : nat) (p : ptree) | HState (i : nat) (s : ptree) | HRng (i : nat).
Definition on_obj (h : heap) (i : nat) (g : func -> func * outcome unit) : heap * outcome unit :=
  match nth_error h i with Some f => let (f', r) := g f in (upd h i f', r) | None => (h, Err EAttribute) end.
Definition hstep (sub : nat -> nat -> bool) (h : heap) (o : hop) : heap * outcome unit :=
  match o with
  | HCopy i => match nth_error h i with Some f => (h ++ [f], Ok tt) | None => (h, Err EAttribute) end
  | HSoft i j tau => match nth_error h j with Some g => on_obj h i (fun f => soft_update sub f g tau) | None => (h, Err EAttribute) end
  | HParams i p => on_obj h i (fun f => set_params f p)
  | HState i s => on_obj h i (fun f => set_state f s)
  | HRng i => on_obj h i (fun f => (next_key f, Ok tt))
  end.
Definition hrun (sub : nat -> nat -> bool) (h : heap) (os : list hop) : heap := fold_left (fun h o => fst (hstep sub h o)) os h.

(** * Learners *)

(** An optax optimizer: init(params) and update(grads, opt_state, params) -> (updates, opt_state). *)
Record optimizer : Type := mkOpt { o_init : ptree -> ptree; o_update : gtree -> ptree -> ptree -> outcome (ptree * ptree) }.
(** Which class: BaseTDLearning, PolicyObjective, ModelUpdater. *)
Inductive kind : Type := KTD | KPolicy | KModel.
Record learner : Type := mkLearner { l_kind : kind; l_func : func; l_opt : optimizer; l_ostate : ptree }.
(** td_learning/_base.py:24-38, policy_objectives/_base.py, model_updaters/_model_updater.py:52-64 (constructors). *)
Definition new_learner (k : kind) (f : func) (o : optimizer) : learner := mkLearner k f o (o_init o (f_params f)).
Definition with_func (l : learner) (f : func) : learner := mkLearner (l_kind l) f (l_opt l) (l_ostate l).
(** td_learning/_base.py:199-206 and _model_updater.py (optimizer_state.setter): AttributeError on a mismatch;
    policy_objectives/_base.py:119-121: no check. *)
Definition set_ostate (l : learner) (os : ptree) : learner * outcome unit :=
  let ok := match l_kind l with KPolicy => true | _ => same_structure os (l_ostate l) end in
  if ok then (mkLearner (l_kind l) (l_func l) (l_opt l) os, Ok tt) else (l, Err EAttribute).
(** optimizer.setter: td_learning/_base.py:187-193, _model_updater.py; policy_objectives/_base.py:107-113 refers to self._f, which a
    PolicyObjective does not have. *)
Definition set_optimizer (l : learner) (o : optimizer) : learner * outcome unit :=
  match l_kind l with
  | KPolicy => (l, Err EAttribute)
  | _ => if same_structure (o_init o (f_params (l_func l))) (l_ostate l) then (mkLearner (l_kind l) (l_func l) o (l_ostate l), Ok tt) else (l, Err EAttribute)
  end.
(** td_learning/_base.py:40-43: the optimizer's updates are added to the parameters (optax.apply_updates). *)
Definition apply_grads_func (o : optimizer) (os p : ptree) (g : gtree) : outcome (ptree * ptree) :=
  bind (o_update o g os p) (fun uo => bind (tmap2 (jop Rplus) p (fst uo)) (fun p' => Ok (snd uo, p'))).
(** td_learning/_base.py:93-116, policy_objectives/_base.py:155-176, _model_updater.py [apply_grads]: function_state is replaced first;
    the tuple assignment then replaces optimizer_state and params, in this order. *)
Definition apply_grads (l : learner) (g : gtree) (fs : ptree) : learner * outcome unit :=
  match set_state (l_func l) fs with
  | (_, Err e) => (l, Err e)
  | (f, Ok _) =>
      let l := with_func l f in
      match apply_grads_func (l_opt l) (l_ostate l) (f_params f) g with
      | Err e => (l, Err e)
      | Ok (os, p) =>
          match set_ostate l os with
          | (l, Err e) => (l, Err e)
          | (l, Ok _) => let (f, r) := set_params (l_func l) p in (with_func l f, r)
          end
      end
  end.
(** any(jnp.any(jnp.isnan(g)) for g in tree_leaves(grads)). *)
Definition has_nan (g : gtree) : bool := existsb (fun x => existsb (fun y => match y with None => true | Some _ => false end) x) (leaves g).
(** td_learning/_base.py:60-91, policy_objectives/_base.py:128-153, _model_updater.py [update]; [gam] is grads_and_metrics as a function
    of params, function_state and random key; M are the metrics (and TD errors). *)
Definition update {M : Type} (gam : ptree -> ptree -> nat -> outcome (gtree * ptree * M)) (l : learner) : learner * outcome M :=
  let f := l_func l in
  let l := with_func l (next_key f) in
  match gam (f_params f) (f_state f) (f_key f) with
  | Err e => (l, Err e)
  | Ok (g, fs, m) =>
      if has_nan g then (l, Err ERuntime)
      else match apply_grads l g fs with (l, Err e) => (l, Err e) | (l, Ok _) => (l, Ok m) end
  end.
(** What a program can do with a learner; the parameters of the function can also be replaced from outside. *)
Inductive lop : Type :=
| LUpdate (gam : ptree -> ptree -> nat -> outcome (gtree * ptree * unit)) | LApply (g : gtree) (fs : ptree)
| LOptimizer (o : optimizer) | LOstate (os : ptree) | LParams (p : ptree) | LState (s : ptree).
Definition lstep (l : learner) (o : lop) : learner * outcome unit :=
  match o with
  | LUpdate gam => update gam l
  | LApply g fs => apply_grads l g fs
  | LOptimizer o => set_optimizer l o
  | LOstate os => set_ostate l os
  | LParams p => let (f, r) := set_params (l_func l) p in (with_func l f, r)
  | LState s => let (f, r) := set_state (l_func l) s in (with_func l f, r)
  end.
Definition lrun (l : learner) (os : list lop) : learner := fold_left (fun l o => fst (lstep l o)) os l.
