(** Model of coax/utils/_action_noise.py, the pytree helpers, preprocessors and environment helpers of coax/utils/_array.py and
    coax/utils/_misc.py, coax/wrappers/_meta_policy.py and coax/utils/_dmc_gym.py. *)
From Coq Require Import List ZArith Bool Reals.
From Verif Require Import PyCommon UtilsModel.
Import ListNotations.
Local Open Scope R_scope.
Set Implicit Arguments.

(** All results, or the first exception. *)
Fixpoint collect_all {A : Type} (l : list (outcome A)) : outcome (list A) :=
  match l with
  | [] => Ok []
  | x :: r => bind x (fun a => bind (collect_all r) (fun rest => Ok (a :: rest)))
  end.

(** * Ornstein-Uhlenbeck noise *)

(** _action_noise.py:64-74.  mu, sigma, theta and the bounds are floats (broadcast arrays are not modelled); actions are vectors. *)
Record ou := mkOU { ou_mu : R; ou_sigma : R; ou_theta : R; ou_min : R; ou_max : R; ou_noise : option (list R) }.
Definition ou_new (mu sigma theta : R) (min_value max_value : option R) : ou :=
  mkOU mu sigma theta (match min_value with None => - 1000000000000000 | Some m => m end) (match max_value with None => 1000000000000000 | Some m => m end) None.
(** Lines 76-82 [reset]. *)
Definition ou_reset (o : ou) : ou := mkOU (ou_mu o) (ou_sigma o) (ou_theta o) (ou_min o) (ou_max o) None.
(** numpy's cast of a float to an integer type: towards zero. *)
Definition rtrunc (x : R) : R := if Rle_dec 0 x then IZR (Int_part x) else - IZR (Int_part (- x)).
(** Lines 84-110 [__call__]; [ints] says whether the dtype of the action is an integer type (mu is a float, so the noise is not), [ws] are
    the standard normal draws, one per component of the action.  If the action has another length than the stored noise: the in-place
    addition repeats a single draw, and everything else is a ValueError. *)
Definition ou_call (o : ou) (ints : bool) (a ws : list R) : ou * outcome (list R) :=
  let noise := match ou_noise o with None => repeat (ou_mu o) (length a) | Some n => n end in
  let white := if ints then map rtrunc ws else ws in
  let stretch (l : list R) := match l with [x] => repeat x (length noise) | _ => l end in
  if Nat.eqb (length (stretch white)) (length noise) then
    let noise' := map (fun xw => clip (fst xw + (ou_theta o * (ou_mu o - fst xw) + ou_sigma o * snd xw)) (ou_min o) (ou_max o)) (combine noise (stretch white)) in
    (mkOU (ou_mu o) (ou_sigma o) (ou_theta o) (ou_min o) (ou_max o) (Some noise'), Ok (map (fun ax => fst ax + snd ax) (combine (stretch a) noise')))
  else (mkOU (ou_mu o) (ou_sigma o) (ou_theta o) (ou_min o) (ou_max o) (Some noise), Err EValue).

(** * Pytrees of arrays *)

(** An n-dimensional array as nested lists, and a pytree (dicts are listed in the order of their sorted keys). *)
Inductive arr : Type := AScal (x : R) | AArr (l : list arr).
Inductive tree : Type := TLeaf (a : arr) | TNode (l : list tree).
(** jax.tree_map with a function that may raise. *)
Fixpoint tree_map (f : arr -> outcome arr) (t : tree) : outcome tree :=
  match t with
  | TLeaf a => bind (f a) (fun b => Ok (TLeaf b))
  | TNode l => bind (collect_all (map (tree_map f) l)) (fun l' => Ok (TNode l'))
  end.
Fixpoint tree_leaves (t : tree) : list arr := match t with TLeaf a => [a] | TNode l => flat_map tree_leaves l end.
(** jnp.expand_dims(x, axis) for an axis >= 0; beyond x.ndim it is a ValueError (not noticed here if x has size zero). *)
Fixpoint expand_dims (axis : nat) (x : arr) : outcome arr :=
  match axis, x with
  | O, _ => Ok (AArr [x])
  | S k, AArr l => bind (collect_all (map (expand_dims k) l)) (fun l' => Ok (AArr l'))
  | S _, AScal _ => Err EValue
  end.
(** jnp.squeeze(x, axis): the axis must have size one. *)
Fixpoint squeeze (axis : nat) (x : arr) : outcome arr :=
  match axis, x with
  | O, AArr [y] => Ok y
  | S k, AArr l => bind (collect_all (map (squeeze k) l)) (fun l' => Ok (AArr l'))
  | _, _ => Err EValue
  end.
(** arr[index] for a python integer: negative indices count from the end; beyond the ends numpy raises and jax takes the nearest end. *)
Definition arr_index (jaxarr : bool) (i : Z) (x : arr) : outcome arr :=
  match x with
  | AScal _ => Err EIndex
  | AArr l =>
      let n := Z.of_nat (length l) in
      let j := if (i <? 0)%Z then (i + n)%Z else i in
      let j := if jaxarr then Z.max 0 (Z.min j (n - 1)) else j in
      if ((0 <=? j) && (j <? n))%Z then match nth_error l (Z.to_nat j) with Some y => Ok y | None => Err EIndex end else Err EIndex
  end.
(** _array.py:116-137 [batch_to_single]. *)
Definition batch_to_single (jaxarr : bool) (i : Z) (t : tree) : outcome tree := tree_map (arr_index jaxarr i) t.
(** _array.py:850-871 [single_to_batch]. *)
Definition single_to_batch (t : tree) : outcome tree := tree_map (expand_dims 0) t.

(** _array.py:1011-1111 [unvectorize].  An axis is None or a non-negative int; one for all arguments or a tuple of them; likewise for the
    outputs.  The function returns a tuple or anything else. *)
Inductive axes : Type := AxAll (a : option nat) | AxEach (l : list (option nat)).
Inductive fout : Type := FOne (t : tree) | FTuple (l : list tree).
Definition along (op : nat -> arr -> outcome arr) (a : option nat) (t : tree) : outcome tree := match a with None => Ok t | Some k => tree_map (op k) t end.
Fixpoint zip_along (op : nat -> arr -> outcome arr) (l : list (option nat)) (ts : list tree) : outcome (list tree) :=
  match l, ts with
  | a :: l', t :: ts' => bind (along op a t) (fun x => bind (zip_along op l' ts') (fun r => Ok (x :: r)))
  | _, _ => Ok []
  end.
Definition axes_for (ax : axes) (n : nat) : list (option nat) := match ax with AxAll a => repeat a n | AxEach l => l end.
Definition unvectorize (f : list tree -> outcome fout) (in_axes out_axes : axes) (args : list tree) : outcome fout :=
  let ia := axes_for in_axes (length args) in
  if negb (Nat.eqb (length args) (length ia)) then Err EValue
  else bind (zip_along expand_dims ia args) (fun vargs => bind (f vargs) (fun out =>
    match out with
    | FTuple l =>
        let oa := axes_for out_axes (length l) in
        if negb (Nat.eqb (length l) (length oa)) then Err EValue
        else bind (zip_along squeeze oa l) (fun l' => Ok (FTuple l'))
    | FOne t =>
        match out_axes with
        | AxAll a => bind (along squeeze a t) (fun t' => Ok (FOne t'))
        | AxEach _ => Err EType
        end
    end)).

(** jax.tree_map over several trees: all must have the structure of the first. *)
Fixpoint tree_heads (ts : list tree) : option (list arr) :=
  match ts with
  | [] => Some []
  | TLeaf a :: r => match tree_heads r with Some l => Some (a :: l) | None => None end
  | TNode _ :: _ => None
  end.
Fixpoint tree_kids (n : nat) (ts : list tree) : option (list (list tree)) :=
  match ts with
  | [] => Some []
  | TNode l :: r => if Nat.eqb (length l) n then match tree_kids n r with Some k => Some (l :: k) | None => None end else None
  | TLeaf _ :: _ => None
  end.
Fixpoint tree_map_list (f : list arr -> outcome arr) (t : tree) (rest : list tree) : outcome tree :=
  match t with
  | TLeaf a => match tree_heads rest with Some l => bind (f (a :: l)) (fun b => Ok (TLeaf b)) | None => Err EValue end
  | TNode l =>
      match tree_kids (length l) rest with
      | None => Err EValue
      | Some rows =>
          bind ((fix go (i : nat) (l : list tree) : outcome (list tree) :=
             match l with
             | [] => Ok []
             | t' :: l' => bind (tree_map_list f t' (map (fun r => nth i r (TNode [])) rows)) (fun x => bind (go (S i) l') (fun r => Ok (x :: r)))
             end) 0%nat l) (fun l' => Ok (TNode l'))
      end
  end.
(** jnp.stack(args): the shapes must agree; at least one array. *)
Fixpoint shape_eqb (x y : arr) : bool :=
  match x, y with
  | AScal _, AScal _ => true
  | AArr l, AArr m => (fix go (l m : list arr) : bool := match l, m with [], [] => true | a :: l', b :: m' => shape_eqb a b && go l' m' | _, _ => false end) l m
  | _, _ => false
  end.
Definition jstack (l : list arr) : outcome arr :=
  match l with
  | [] => Err EValue
  | x :: r => if forallb (shape_eqb x) r then Ok (AArr l) else Err EValue
  end.
(** zip( *trees ): up to the shortest. *)
Fixpoint zip_lists {A : Type} (n : nat) (ls : list (list A)) : list (list A) :=
  match n with
  | O => []
  | S k => match (fix heads (ls : list (list A)) := match ls with [] => Some ([], []) | (x :: r) :: ls' => match heads ls' with Some (h, t) => Some (x :: h, r :: t) | None => None end | [] :: _ => None end) ls with
           | Some (h, t) => h :: zip_lists k t
           | None => []
           end
  end.
(** _array.py:1132-1149 [stack_trees]: each argument is a list of pytrees. *)
Definition stack_trees (trees : list (list tree)) : outcome tree :=
  match zip_lists (match trees with [] => 0%nat | l :: _ => length l end) trees with
  | [] => Err EType
  | h :: rest => tree_map_list jstack (TNode h) (map TNode rest)
  end.

(** jnp.ravel and _array.py:944-963 [tree_ravel]: concatenating no array at all is a ValueError. *)
Fixpoint ravel (x : arr) : list R := match x with AScal v => [v] | AArr l => flat_map ravel l end.
Definition tree_ravel (t : tree) : outcome (list R) := match tree_leaves t with [] => Err EValue | ls => Ok (flat_map ravel ls) end.
(** jnp.quantile with linear interpolation: position q * (n - 1) in the sorted array. *)
Fixpoint rinsert (x : R) (l : list R) : list R := match l with [] => [x] | y :: r => if Rle_dec x y then x :: l else y :: rinsert x r end.
Definition rsort (l : list R) : list R := fold_right rinsert [] l.
Definition quantile (v : list R) (q : R) : outcome R :=
  match v with
  | [] => Err EValue
  | _ =>
      let s := rsort v in
      let pos := q * INR (length v - 1) in
      let lo := Z.to_nat (Int_part pos) in
      let w := pos - INR lo in
      Ok ((1 - w) * nth lo s 0 + w * nth (if Rle_dec w 0 then lo else S lo) s 0)
  end.
(** _array.py:553-583 [get_magnitude_quantiles]: min, p25, p50, p75, max. *)
Definition magnitude_quantiles (t : tree) : outcome (list R) :=
  bind (tree_ravel t) (fun v => collect_all (map (quantile (map Rabs v)) [0; / 4; / 2; 3 * / 4; 1])).
(** _array.py:508-513 [_get_leaf_diagnostics]: largest magnitude and euclidean norm.  jnp.max of an empty array is a ValueError. *)
Definition leaf_diagnostics (v : list R) : outcome (R * R) :=
  match map Rabs v with
  | [] => Err EValue
  | x :: l => Ok (rmax_list x l, sqrt (rsum (map (fun y => y * y) v)))
  end.
(** Lines 516-550 [get_grads_diagnostics], global and per leaf. *)
Definition grads_diagnostics (t : tree) : outcome (R * R) := bind (tree_ravel t) leaf_diagnostics.
Definition grads_diagnostics_leaves (t : tree) : outcome (list (R * R)) := collect_all (map (fun a => leaf_diagnostics (ravel a)) (tree_leaves t)).

(** _array.py:1114-1129 [_check_leaf_batch_size] for array leaves. *)
Definition check_batch_size (t : tree) : outcome nat :=
  match tree_leaves t with
  | [] => Err EValue
  | AScal _ :: _ => Err EType
  | AArr l :: r => if forallb (fun a => match a with AScal _ => false | AArr m => Nat.eqb (length m) (length l) end) r then Ok (length l) else Err EType
  end.
(** jnp.take(x, ix, axis=0) for indices in range. *)
Definition take0 (ix : list nat) (x : arr) : outcome arr := match x with AScal _ => Err EType | AArr l => bind (gather l ix) (fun m => Ok (AArr m)) end.
(** _array.py:966-1008 [tree_sample]; [ix] are the draws of jax.random.choice, which raises if n > batch_size without replacement. *)
Definition tree_sample (t : tree) (n : nat) (replace : bool) (axis : nat) (ix : list nat) : outcome tree :=
  bind (check_batch_size t) (fun b => if negb replace && Nat.ltb b n then Err EValue else tree_map (take0 ix) t).

(** _array.py:462-505 [double_relu] of a vector. *)
Definition relu (x : R) : R := Rmax x 0.
Definition double_relu (v : list R) : list R := map (fun x => - relu (- x)) v ++ map relu v.

(** * Preprocessors *)

(** gymnasium spaces.  A Box has a flat shape; Tuple and Dict are lists of named spaces. *)
Inductive gspace : Type :=
| GDiscrete (n : nat) (start : Z)
| GBox (low high : list R)
| GMultiDiscrete (nvec : list nat)
| GMultiBinary (n : nat)
| GNode (l : list (nat * gspace))
| GOther.
(** Elements of a space, and batches of elements (a batch of a composite space is a composite of batches). *)
Inductive gval : Type := VInt (z : Z) | VVec (v : list R) | VInts (v : list Z) | VNode (l : list (nat * gval)).
Inductive gbatch : Type := BInt (l : list Z) | BVec (l : list (list R)) | BInts (l : list (list Z)) | BNode (l : list (nat * gbatch)).
(** Preprocessed data: matrices with a batch axis. *)
Inductive gout : Type := OMat (m : list (list R)) | OList (l : list (list (list R))) | ONode (l : list (nat * gout)).
(** jax.nn.one_hot: a row of zeros if the index is out of range. *)
Definition onehot (n : nat) (z : Z) : list R := map (fun k => if (Z.of_nat k =? z)%Z then 1 else 0) (seq 0 n).
Definition clip_row (low high v : list R) : list R := map (fun t => clip (snd t) (fst (fst t)) (snd (fst t))) (combine (combine low high) v).
(** The input of the preprocessor is a single element or a batch. *)
Inductive ginput : Type := One (v : gval) | Many (b : gbatch).
Fixpoint vget (k : nat) (l : list (nat * gval)) : option gval := match l with [] => None | (j, v) :: r => if Nat.eqb k j then Some v else vget k r end.
Fixpoint bget (k : nat) (l : list (nat * gbatch)) : option gbatch := match l with [] => None | (j, v) :: r => if Nat.eqb k j then Some v else bget k r end.
(** X[i] or X[k] of a composite input. *)
Definition field (k : nat) (x : ginput) : outcome ginput :=
  match x with
  | One (VNode l) => match vget k l with Some v => Ok (One v) | None => Err EKey end
  | Many (BNode l) => match bget k l with Some v => Ok (Many v) | None => Err EKey end
  | _ => Err EType
  end.
(** _array.py:304-370 [default_preprocessor].  Reshaping to (-1, n) needs rows of the right length (ValueError otherwise; arrays whose
    total size happens to be divisible are not modelled); rows of a MultiDiscrete input that are too short are an IndexError (numpy; jax
    would take the last column).  The keys passed to the functions are not used. *)
Fixpoint preprocess (sp : gspace) (x : ginput) {struct sp} : outcome gout :=
  match sp with
  | GDiscrete n _ =>
      match x with
      | One (VInt z) => Ok (OMat [onehot n z])
      | Many (BInt l) => Ok (OMat (map (onehot n) l))
      | _ => Err EType
      end
  | GBox low high =>
      match x with
      | One (VVec v) => if Nat.eqb (length v) (length low) then Ok (OMat [clip_row low high v]) else Err EValue
      | Many (BVec l) => if forallb (fun v => Nat.eqb (length v) (length low)) l then Ok (OMat (map (clip_row low high) l)) else Err EValue
      | _ => Err EType
      end
  | GMultiDiscrete nvec =>
      let rows := match x with One (VInts v) => Ok [v] | Many (BInts l) => Ok l | _ => Err EType end in
      bind rows (fun rows =>
        if forallb (fun v => Nat.leb (length nvec) (length v)) rows
        then Ok (OList (map (fun i => map (fun v => onehot (nth i nvec 0%nat) (nth i v 0%Z)) rows) (seq 0 (length nvec))))
        else Err EIndex)
  | GMultiBinary n =>
      match x with
      | One (VInts v) => if Nat.eqb (length v) n then Ok (OMat [map IZR v]) else Err EValue
      | Many (BInts l) => if forallb (fun v => Nat.eqb (length v) n) l then Ok (OMat (map (map IZR) l)) else Err EValue
      | _ => Err EType
      end
  | GNode l =>
      bind ((fix go (l : list (nat * gspace)) : outcome (list (nat * gout)) :=
         match l with
         | [] => Ok []
         | (k, sp') :: l' => bind (field k x) (fun y => bind (preprocess sp' y) (fun o => bind (go l') (fun r => Ok ((k, o) :: r))))
         end) l) (fun os => Ok (ONode os))
  | GOther => Err EType
  end.

(** _array.py:189-238 [check_preprocessors]: [close] compares two outputs (structure, types, values); the keys come from one sequence. *)
Section CheckPreprocessors.
Variables K X Y : Type.
Variable close : Y -> Y -> bool.
Variable keys : nat -> K.
(** One sample: key number i for the first function, i+1, i+2, ... for the others. *)
Definition check_sample (p0 : K -> X -> Y) (ps : list (K -> X -> Y)) (i : nat) (x : X) : bool :=
  forallb (fun jp => close (snd jp (keys (i + 1 + fst jp)) x) (p0 (keys i) x)) (combine (seq 0 (length ps)) ps).
Fixpoint check_samples (p0 : K -> X -> Y) (ps : list (K -> X -> Y)) (i : nat) (xs : list X) : bool :=
  match xs with
  | [] => true
  | x :: r => if check_sample p0 ps i x then check_samples p0 ps (i + 1 + length ps) r else false
  end.
(** [xs] are the num_samples draws of space.sample(). *)
Definition check_preprocessors (ps : list (K -> X -> Y)) (xs : list X) : outcome bool :=
  match ps with
  | p0 :: (_ :: _) as r => Ok (check_samples p0 (tl ps) 0 xs)
  | _ => Err EValue
  end.
End CheckPreprocessors.

(** * Environment helpers *)

(** A wrapped environment from the outside in: each layer may have the attribute; the last layer has no attribute [env]. *)
Definition layers (V : Type) := list (option V).
(** _misc.py:363-390 [has_env_attr]. *)
Fixpoint has_env_attr {V : Type} (e : layers V) (max_depth : nat) : bool :=
  match max_depth, e with
  | S d, Some _ :: _ => true
  | S d, None :: e' => has_env_attr e' d
  | _, _ => false
  end.
(** _misc.py:393-428 [get_env_attr]; [default] None is '__ERROR__'. *)
Fixpoint get_env_attr {V : Type} (e : layers V) (default : option V) (max_depth : nat) : outcome V :=
  match max_depth, e with
  | S d, Some v :: _ => Ok v
  | S d, None :: e' => get_env_attr e' default d
  | _, _ => match default with Some v => Ok v | None => Err EAttribute end
  end.

(** gymnasium environments: reset gives (observation, info), step gives five values. *)
Section Env.
Variables Env Obs Act Info : Type.
Variable env_reset : Env -> Env * (Obs * Info).
Variable env_step : Env -> Act -> Env * (Obs * R * bool * bool * Info).
(** What a python function receives as [s]. *)
Inductive pyobs : Type := PObs (o : Obs) | PTuple (o : Obs) (i : Info).
(** _misc.py:320-360 [render_episode]: line 345 binds the whole tuple to s, line 350 unpacks four values out of five.  The result lists the
    arguments of the policy. *)
Definition render_episode (e : Env) (policy : pyobs -> Act) : Env * list pyobs * outcome unit :=
  let (e1, oi) := env_reset e in
  let s := PTuple (fst oi) (snd oi) in
  let (e2, _) := env_step e1 (policy s) in
  (e2, [s], Err EValue).

(** wrappers/_meta_policy.py:32-54.  An arm has the argument return_logp or not; info None is an empty dict. *)
Inductive arm : Type := ArmLogp (f : Obs -> Act * R) | ArmPlain (f : Obs -> Act).
Record menv := mkME { me_env : Env; me_arms : list arm; me_s : option Obs }.
Definition meta_reset (m : menv) : menv * (Obs * Info) :=
  let (e, oi) := env_reset (me_env m) in (mkME e (me_arms m) (Some (fst oi)), oi).
Record minfo := mkMI { mi_orig : Info; mi_a : Act; mi_logp : R }.
(** [getargspec] says that inspect.getargspec exists (python before 3.11). *)
Definition meta_step (getargspec : bool) (m : menv) (a_meta : Z) : menv * outcome (Obs * R * bool * bool * minfo) :=
  if negb ((0 <=? a_meta) && (a_meta <? Z.of_nat (length (me_arms m))))%Z then (m, Err EAssertion)
  else match me_s m, nth_error (me_arms m) (Z.to_nat a_meta) with
  | Some s, Some pi =>
      if negb getargspec then (m, Err EAttribute)
      else
        let (a, logp) := match pi with ArmLogp f => f s | ArmPlain f => (f s, 0) end in
        let (e, out) := env_step (me_env m) a in
        let '(o, r, d, t, i) := out in
        (mkME e (me_arms m) (Some o), Ok (o, r, d, t, mkMI i a logp))
  | _, _ => (m, Err EAssertion)
  end.
End Env.

(** * DeepMind Control environments: coax/utils/_dmc_gym.py *)

(** The registry of gymnasium keeps the keyword arguments of the first registration.  Lines 11-42 [make_dmc]: registers the id only if it is
    not there yet.  [P] are seed, height, width, camera id and the step limit. *)
Section Dmc.
Variables Id P : Type.
Variable id_eqb : Id -> Id -> bool.
Fixpoint reg_get (i : Id) (r : list (Id * P)) : option P := match r with [] => None | (j, p) :: r' => if id_eqb i j then Some p else reg_get i r' end.
Definition make_dmc (registry : list (Id * P)) (i : Id) (p : P) : list (Id * P) * P :=
  match reg_get i registry with
  | Some p0 => (registry, p0)
  | None => ((i, p) :: registry, p)
  end.
End Dmc.
(** dm_env time steps: last, reward, discount, observation (values of the ordered dict; each a scalar or an array). *)
Record dm_step := mkDS { ds_last : bool; ds_reward : R; ds_discount : R; ds_obs : list arr }.
(** Lines 119-127 [flatten_obs]. *)
Definition flatten_obs (obs : list arr) : outcome (list R) := match obs with [] => Err EValue | _ => Ok (flat_map ravel obs) end.
(** Lines 69-73 [step]: observation, reward, terminated, truncated. *)
Definition dmc_step (t : dm_step) : outcome (list R * R * bool * bool) := bind (flatten_obs (ds_obs t)) (fun o => Ok (o, ds_reward t, ds_last t, false)).
(** dm_env specs: unbounded or with bounds (flattened; a scalar bound applies to all components), of float type or not; [None] bounds
    stand for infinities. *)
Inductive bound : Type := BOne (x : R) | BAll (l : list R).
Record spec := mkSpec { sp_float : bool; sp_dim : nat; sp_bounds : option (bound * bound) }.
Definition spread (n : nat) (b : bound) : list (option R) := match b with BOne x => repeat (Some x) n | BAll l => map (@Some R) l end.
(** Lines 88-101 [extract_min_max]; a multi-dimensional bounded spec (numpy would broadcast to a matrix) is not modelled. *)
Definition extract_min_max (s : spec) : outcome (list (option R) * list (option R)) :=
  if negb (sp_float s) then Err EAssertion
  else Ok (match sp_bounds s with
           | None => (repeat None (sp_dim s), repeat None (sp_dim s))
           | Some (lo, hi) => (spread (sp_dim s) lo, spread (sp_dim s) hi)
           end).
(** Lines 104-117 [spec_to_box]. *)
Definition spec_to_box (l : list spec) : outcome (list (option R) * list (option R)) :=
  match l with
  | [] => Err EValue
  | _ => bind (collect_all (map extract_min_max l)) (fun bs =>
      let low := flat_map fst bs in let high := flat_map snd bs in
      if Nat.eqb (length low) (length high) then Ok (low, high) else Err EAssertion)
  end.
