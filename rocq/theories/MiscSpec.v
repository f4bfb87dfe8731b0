(** Specifications for MiscModel.v, stated on plain lists, reals and relations. *)
From Coq Require Import List ZArith Bool Reals.
From Verif Require Import PyCommon UtilsModel MiscModel.
Import ListNotations.
Local Open Scope R_scope.
Set Implicit Arguments.

(** * Noise *)

(** A sequence of calls: dtype, action and draws of each; the results in order. *)
Definition ou_input := (bool * list R * list R)%type.
Fixpoint ou_run (o : ou) (calls : list ou_input) : ou * list (outcome (list R)) :=
  match calls with
  | [] => (o, [])
  | (ints, a, ws) :: r => let (o1, y) := ou_call o ints a ws in let (o2, ys) := ou_run o1 r in (o2, y :: ys)
  end.
(** All calls are about actions of n components of a floating point type. *)
Definition float_calls (n : nat) (calls : list ou_input) : Prop := forall c, In c calls -> fst (fst c) = false /\ length (snd (fst c)) = n /\ length (snd c) = n.
Definition act (calls : list ou_input) (k i : nat) : R := nth i (snd (fst (nth k calls (false, [], [])))) 0.
Definition draw (calls : list ou_input) (k i : nat) : R := nth i (snd (nth k calls (false, [], []))) 0.
(** mu + sigma * sum over j < k of (1 - theta)^(k-1-j) * w_j. *)
Fixpoint discounted (rho : R) (w : nat -> R) (k : nat) : R := match k with O => 0 | S k' => rho * discounted rho w k' + w k' end.

(** * Trees *)

(** Same structure and shapes. *)
Fixpoint same_shape (x y : arr) : Prop :=
  match x, y with
  | AScal _, AScal _ => True
  | AArr l, AArr m => (fix go (l m : list arr) : Prop := match l, m with [], [] => True | a :: l', b :: m' => same_shape a b /\ go l' m' | _, _ => False end) l m
  | _, _ => False
  end.
Fixpoint same_tree (x y : tree) : Prop :=
  match x, y with
  | TLeaf a, TLeaf b => same_shape a b
  | TNode l, TNode m => (fix go (l m : list tree) : Prop := match l, m with [], [] => True | a :: l', b :: m' => same_tree a b /\ go l' m' | _, _ => False end) l m
  | _, _ => False
  end.
(** Somewhere the array has fewer than k axes; somewhere its axis k is missing or has not size one. *)
Inductive shallower : nat -> arr -> Prop :=
| sh_scalar : forall k v, shallower (S k) (AScal v)
| sh_inside : forall k l y, In y l -> shallower k y -> shallower (S k) (AArr l).
Inductive not_one : nat -> arr -> Prop :=
| no_scalar : forall k v, not_one k (AScal v)
| no_here : forall l, length l <> 1%nat -> not_one 0 (AArr l)
| no_inside : forall k l y, In y l -> not_one k y -> not_one (S k) (AArr l).
(** All components, in order; the sum of their squares. *)
Fixpoint arr_values (a : arr) : list R := match a with AScal x => [x] | AArr l => concat (map arr_values l) end.
Fixpoint values_of (t : tree) : list R := match t with TLeaf a => arr_values a | TNode l => concat (map values_of l) end.
Inductive component : tree -> R -> Prop :=
| comp_leaf : forall a x, In x (arr_values a) -> component (TLeaf a) x
| comp_node : forall l t x, In t l -> component t x -> component (TNode l) x.
Fixpoint sumsq_arr (a : arr) : R := match a with AScal x => x * x | AArr l => fold_right Rplus 0 (map sumsq_arr l) end.
Fixpoint sumsq (t : tree) : R := match t with TLeaf a => sumsq_arr a | TNode l => fold_right Rplus 0 (map sumsq l) end.

(** f does for batches of size one what g does for single instances. *)
Definition batched (g : list tree -> outcome fout) (ia oa : axes) (f : list tree -> outcome fout) : Prop :=
  forall args vargs, length (axes_for ia (length args)) = length args -> zip_along expand_dims (axes_for ia (length args)) args = Ok vargs ->
    match g args with
    | Err e => f vargs = Err e
    | Ok (FOne t) => exists a b, oa = AxAll a /\ along expand_dims a t = Ok b /\ f vargs = Ok (FOne b)
    | Ok (FTuple l) => length l = length (axes_for oa (length l)) /\ exists m, zip_along expand_dims (axes_for oa (length l)) l = Ok m /\ f vargs = Ok (FTuple m)
    end.

(** * Spaces *)

(** Membership (gymnasium's [contains]). *)
Inductive member : gspace -> gval -> Prop :=
| m_discrete : forall n start z, (start <= z < start + Z.of_nat n)%Z -> member (GDiscrete n start) (VInt z)
| m_box : forall low high v, length v = length low -> length high = length low -> (forall i, (i < length v)%nat -> nth i low 0 <= nth i v 0 <= nth i high 0) -> member (GBox low high) (VVec v)
| m_multidiscrete : forall nvec v, length v = length nvec -> (forall i, (i < length v)%nat -> (0 <= nth i v 0 < Z.of_nat (nth i nvec 0%nat))%Z) -> member (GMultiDiscrete nvec) (VInts v)
| m_multibinary : forall n v, length v = n -> (forall z, In z v -> z = 0%Z \/ z = 1%Z) -> member (GMultiBinary n) (VInts v)
| m_node : forall l vs, members l vs -> member (GNode l) (VNode vs)
with members : list (nat * gspace) -> list (nat * gval) -> Prop :=
| ms_nil : members [] []
| ms_cons : forall k sp v l vs, ~ In k (map fst l) -> member sp v -> members l vs -> members ((k, sp) :: l) ((k, v) :: vs).
Scheme member_mut := Induction for member Sort Prop with members_mut := Induction for members Sort Prop.
(** The documented domain of the encoding: no Discrete space starts at another number than 0. *)
Inductive zero_based : gspace -> Prop :=
| z_discrete : forall n, zero_based (GDiscrete n 0)
| z_box : forall low high, zero_based (GBox low high)
| z_multidiscrete : forall nvec, zero_based (GMultiDiscrete nvec)
| z_multibinary : forall n, zero_based (GMultiBinary n)
| z_node : forall l, (forall k sp, In (k, sp) l -> zero_based sp) -> zero_based (GNode l).
(** A batch of a space consists of its elements. *)
Inductive batch_of : gspace -> list gval -> gbatch -> Prop :=
| b_discrete : forall n start l, batch_of (GDiscrete n start) (map VInt l) (BInt l)
| b_box : forall low high l, (forall v, In v l -> length v = length low) -> batch_of (GBox low high) (map VVec l) (BVec l)
| b_multidiscrete : forall nvec l, (forall v, In v l -> length v = length nvec) -> batch_of (GMultiDiscrete nvec) (map VInts l) (BInts l)
| b_multibinary : forall n l, (forall v, In v l -> length v = n) -> batch_of (GMultiBinary n) (map VInts l) (BInts l)
| b_node : forall l rows cols, batches_of l rows cols -> batch_of (GNode l) (map VNode rows) (BNode cols)
with batches_of : list (nat * gspace) -> list (list (nat * gval)) -> list (nat * gbatch) -> Prop :=
| bs_nil : forall n, batches_of [] (repeat [] n) []
| bs_cons : forall k sp l vs rows b cols, ~ In k (map fst l) -> length vs = length rows -> batch_of sp vs b -> batches_of l rows cols ->
    batches_of ((k, sp) :: l) (map (fun vr => (k, fst vr) :: snd vr) (combine vs rows)) ((k, b) :: cols).
Scheme batch_mut := Induction for batch_of Sort Prop with batches_mut := Induction for batches_of Sort Prop.
(** The i-th row of every matrix. *)
Fixpoint row_of (i : nat) (o : gout) : gout :=
  match o with
  | OMat m => OMat [nth i m []]
  | OList l => OList (map (fun m => [nth i m []]) l)
  | ONode l => ONode (map (fun ko => (fst ko, row_of i (snd ko))) l)
  end.

(** * DeepMind Control *)
Definition lower (b : option R) (x : R) : Prop := match b with None => True | Some l => l <= x end.
Definition upper (b : option R) (x : R) : Prop := match b with None => True | Some h => x <= h end.
(** An observation conforms to its specification. *)
Definition conforms (s : spec) (a : arr) : Prop :=
  length (arr_values a) = sp_dim s /\
  match sp_bounds s with
  | None => True
  | Some (lo, hi) =>
      (match lo with BOne _ => True | BAll l => length l = sp_dim s end) /\ (match hi with BOne _ => True | BAll l => length l = sp_dim s end) /\
      forall i, (i < sp_dim s)%nat -> (match lo with BOne x => x | BAll l => nth i l 0 end) <= nth i (arr_values a) 0 <= (match hi with BOne x => x | BAll l => nth i l 0 end)
  end.
Definition inside (box : list (option R) * list (option R)) (v : list R) : Prop :=
  length (fst box) = length v /\ length (snd box) = length v /\ forall i, (i < length v)%nat -> lower (nth i (fst box) None) (nth i v 0) /\ upper (nth i (snd box) None) (nth i v 0).

(** * Quantiles *)
Definition count_le (v : list R) (x : R) : nat := length (filter (fun y => if Rle_dec y x then true else false) v).
Definition count_ge (v : list R) (x : R) : nat := length (filter (fun y => if Rle_dec x y then true else false) v).

(** * Meta-policies *)

(** A sequence of meta-actions on the wrapper, and what it should do to the wrapped environment: every time, the selected policy sees the latest observation and its action goes to the environment. *)
Section MetaRun.
Variables Env Obs Act Info : Type.
Variable env_step : Env -> Act -> Env * (Obs * R * bool * bool * Info).
Fixpoint meta_run (m : menv Env Obs Act) (ks : list nat) : menv Env Obs Act * list (outcome (Obs * R * bool * bool * minfo Act Info)) :=
  match ks with
  | [] => (m, [])
  | k :: r => let (m1, x) := meta_step env_step true m (Z.of_nat k) in let (m2, xs) := meta_run m1 r in (m2, x :: xs)
  end.
Definition choose (arms : list (arm Obs Act)) (k : nat) (s : Obs) : option (Act * R) :=
  match nth_error arms k with Some (ArmLogp f) => Some (f s) | Some (ArmPlain f) => Some (f s, 0) | None => None end.
(** [plays arms e s ks rows]: starting from environment e with latest observation s. *)
Inductive plays (arms : list (arm Obs Act)) : Env -> Obs -> list nat -> list (Obs * R * bool * bool * minfo Act Info) -> Prop :=
| plays_nil : forall e s, plays arms e s [] []
| plays_cons : forall e s k ks a logp e' o r d t i rows, choose arms k s = Some (a, logp) -> env_step e a = (e', (o, r, d, t, i)) -> plays arms e' o ks rows ->
    plays arms e s (k :: ks) ((o, r, d, t, mkMI i a logp) :: rows).
End MetaRun.
