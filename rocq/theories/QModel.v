(** Model of the type-1 / type-2 views of q-functions and other action-dependent functions: coax/_core/q.py and
    coax/_core/base_stochastic_func_type1.py.  A haiku forward pass is an arbitrary function applied to every row of the batch;
    parameters, function state and rng are fixed and hidden in that function. *)
From Coq Require Import List Bool Arith Reals.
From Verif Require Import PyCommon UtilsModel DistModel.
Import ListNotations.
Set Implicit Arguments.
Local Open Scope R_scope.

(** jax.vmap of a two-argument function over two batches; unequal batch sizes raise ValueError. *)
Fixpoint vmap2 {A B C : Type} (f : A -> B -> C) (a : list A) (b : list B) : outcome (list C) :=
  match a, b with
  | [], [] => Ok []
  | x :: a', y :: b' => bind (vmap2 f a' b') (fun r => Ok (f x y :: r))
  | _, _ => Err EValue
  end.

(** jnp.repeat(x, n, axis=0), jnp.tile(x, reps). *)
Definition jrepeat {A : Type} (n : nat) (l : list A) : list A := flat_map (fun x => repeat x n) l.
Definition jtile {A : Type} (reps : nat) (l : list A) : list A := concat (repeat l reps).
(** x.reshape(-1, n): rows of n; ValueError when the size is not a multiple of n (or n = 0). *)
Definition jreshape {A : Type} (n : nat) (l : list A) : outcome (list (list A)) :=
  if Nat.eqb n 0 then Err EValue else if Nat.eqb (length l mod n) 0 then Ok (map (fun i => firstn n (skipn (i * n) l)) (seq 0 (length l / n))) else Err EValue.

Section Views.
Variables St V : Type.
(** The action space: Discrete(n) (Some n) or something else; actions as processed by the action preprocessor are vectors. *)
Variable discrete : option nat.
(** The action preprocessor on the actions 0..n-1 (one-hot by default). *)
Variable enc : nat -> list R.
(** jnp.dot(A, .) over the action axis of the outputs of a type-2 function. *)
Variable mix : list R -> list V -> V.

(** q.py:255-283 [_check_signature]: the two model types. *)
Inductive qfun : Type := Type1 (f : St -> list R -> V) | Type2 (f : St -> list V).

(** q.py:133-153 [Q.function_type1]; base_stochastic_func_type1.py:100-131.  Unequal batch sizes of S and A raise ValueError in Q
    (jax.vmap) and AssertionError in the stochastic functions (line 119); the model does not make this distinction. *)
Definition function_type1 (q : qfun) (S : list St) (A : list (list R)) : outcome (list V) :=
  match q with
  | Type1 f => vmap2 f S A
  | Type2 f =>
      match discrete with
      | None => Err EAssertion
      | Some n => if forallb (fun a => Nat.eqb (length a) n) A then vmap2 mix A (map f S) else Err EAssertion
      end
  end.
(** q.py:155-190 [Q.function_type2]; base_stochastic_func_type1.py:133-177. *)
Definition function_type2 (q : qfun) (S : list St) : outcome (list (list V)) :=
  match q with
  | Type2 f => Ok (map f S)
  | Type1 f =>
      match discrete with
      | None => Err EValue
      | Some n => bind (vmap2 f (jrepeat n S) (map enc (jtile (length S) (seq 0 n)))) (jreshape n)
      end
  end.
End Views.
Arguments Type1 {St V} f.
Arguments Type2 {St V} f.

(** q.py:98-131 [Q.__call__] on one observation: function_type1 or function_type2 on a batch of one, inverse value transform, first
    row. *)
Definition q_call_a {St : Type} (discrete : option nat) (enc : nat -> list R) (f_inv : R -> R) (q : qfun St R) (s : St) (a : nat) : outcome R :=
  bind (function_type1 discrete dot q [s] [enc a]) (fun Q => match map f_inv Q with x :: _ => Ok x | [] => Err EIndex end).
Definition q_call_s {St : Type} (discrete : option nat) (enc : nat -> list R) (f_inv : R -> R) (q : qfun St R) (s : St) : outcome (list R) :=
  bind (function_type2 discrete enc q [s]) (fun Q => match map (map f_inv) Q with x :: _ => Ok x | [] => Err EIndex end).

(** base_stochastic_func_type1.py:113-123 [project] for one leaf with k entries per action: the weighted sum of the distribution
    parameters. *)
Definition vmix (k : nat) (a : list R) (ps : list (list R)) : list R := map (fun j => dot a (map (fun p => nth j p 0) ps)) (seq 0 k).

(** base_stochastic_func_type1.py:435-451 [_reshape_to_replicas], [_reshape_from_replicas] and their use in mean_func_type2, mode_func_type2,
    sample_func_type2: evaluate a row-wise function on the replicas (batch * n) and fold the result back. *)
Definition on_replicas {A B : Type} (n : nat) (f : list A -> list B) (l : list (list A)) : outcome (list (list B)) := jreshape n (f (concat l)).
