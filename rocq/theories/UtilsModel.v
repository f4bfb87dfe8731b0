(** Model of helpers in coax/utils: _array.py, _rolling.py, _quantile_funcs.py.  Floats are exact reals. *)
From Coq Require Import List ZArith NArith Lia Bool Reals.
From Verif Require Import PyCommon TransModel.
Import ListNotations.
Set Implicit Arguments.

(** * chunks_pow2 *)

(** The digits of bin(n), most significant first; bin(0) is '0'. *)
Fixpoint pos_bits (p : positive) : list bool :=
  match p with
  | xH => [true]
  | xO q => pos_bits q ++ [false]
  | xI q => pos_bits q ++ [true]
  end.
Definition bin (n : nat) : list bool := match N.of_nat n with N0 => [false] | Npos p => pos_bits p end.

(** _array.py:262-269: the list of (start, stop); [digits] is the rest of the string. *)
Fixpoint chunk_ranges (start : nat) (digits : list bool) : list (nat * nat) :=
  match digits with
  | [] => []
  | false :: ds => chunk_ranges start ds
  | true :: ds => let stop := start + 2 ^ length ds in (start, stop) :: chunk_ranges stop ds
  end.

Definition list_slice {A : Type} (start stop : nat) (l : list A) : list A := firstn (stop - start) (skipn start l).

(** _array.py:255-260 and 268: all leaves are sliced; the batch is rebuilt by its constructor. *)
Definition chunk {O} (b : batch O) (r : nat * nat) : batch O :=
  let f := tmap (list_slice (fst r) (snd r)) in
  new_batch (f (b_S b)) (f (b_A b)) (f (b_logP b)) (list_slice (fst r) (snd r) (b_Rn b)) (f (b_In b)) (f (b_S_next b))
    (f (b_A_next b)) (f (b_logP_next b)) (f (b_W b)) (f (b_idx b)) (f (b_extra b)).
Definition chunks_pow2 {O} (b : batch O) : list (batch O) := map (chunk b) (chunk_ranges 0 (bin (batch_size b))).

(** * StepwiseLinearFunction *)

Local Open Scope R_scope.

(** Strictly ascending times. *)
Fixpoint ascending (steps : list (Z * R)) : bool :=
  match steps with
  | (t1, _) :: (((t2, _) :: _) as rest) => (t1 <? t2)%Z && ascending rest
  | _ => true
  end.

Record slf : Type := mkSlf { f_start : R; f_final : R; f_offsets : list Z; f_intercepts : list R; f_slopes : list R }.

(** _array.py:777-778. *)
Fixpoint slopes (steps : list (Z * R)) : list R :=
  match steps with
  | (t, v) :: (((t', v') :: _) as rest) => ((v' - v) / (IZR t' - IZR t)) :: slopes rest
  | _ => []
  end.

(** _array.py:759-778 [__init__]; the python types of the steps are not modelled (times are ints, values floats). *)
Definition slf_new (steps : list (Z * R)) : outcome slf :=
  if Nat.ltb (length steps) 2 then Err EType
  else if negb (ascending steps) then Err EValue
  else Ok (mkSlf (snd (hd (0%Z, 0) steps)) (snd (last steps (0%Z, 0))) (map fst steps) (map snd steps) (slopes steps)).

(** [onp.max(self._index[mask])]: the largest index whose flag is set. *)
Fixpoint max_index (mask : list bool) (k : nat) (best : nat) : nat :=
  match mask with [] => best | b :: m => max_index m (S k) (if b then k else best) end.

(** _array.py:780-792 [__call__]; an index beyond the slopes is an IndexError. *)
Definition slf_call (f : slf) (x : R) : outcome R :=
  let mask := map (fun t => if Rle_dec (IZR t) x then true else false) (f_offsets f) in
  if negb (existsb (fun b => b) mask) then Ok (f_start f)
  else if forallb (fun b => b) mask then Ok (f_final f)
  else
    let i := max_index mask 0 0 in
    match nth_error (f_intercepts f) i, nth_error (f_slopes f) i, nth_error (f_offsets f) i with
    | Some v, Some s, Some t => Ok (v + s * (x - IZR t))
    | _, _, _ => Err EIndex
    end.

(** * diff_transform *)

(** Entry (i,j) of scipy.linalg.pascal(n, kind='upper') is the binomial coefficient C(j,i), here by Pascal's rule. *)
Fixpoint binom (n k : nat) : Z :=
  match n, k with
  | _, O => 1
  | O, S _ => 0
  | S n', S k' => binom n' k' + binom n' (S k')
  end%Z.

(** _array.py:373-428 [diff_transform_matrix]: sign times Pascal, both axes reversed.  Exact integers (the int32 dtype of
    jax overflows for about 35 frames and more). *)
Definition dtm_entry (n i j : nat) : Z := ((-1) ^ Z.of_nat (n - 1 - i) * binom (n - 1 - j) (n - 1 - i))%Z.
Definition diff_transform_matrix (n : nat) : outcome (list (list Z)) :=
  if Nat.ltb n 1 then Err EAssertion
  else Ok (map (fun i => map (fun j => dtm_entry n i j) (seq 0 n)) (seq 0 n)).

Fixpoint rsum (l : list R) : R := match l with [] => 0 | x :: l' => x + rsum l' end.

(** jnp.dot(X, M) for the vector X of the last axis. *)
Definition vecmat (x : list R) (m : list (list Z)) : list R :=
  map (fun j => rsum (map (fun i => nth i x 0 * IZR (nth j (nth i m []) 0%Z)) (seq 0 (length x)))) (seq 0 (length x)).

(** _array.py:431-459 [diff_transform] on the frame axis. *)
Definition diff_transform (x : list R) : outcome (list R) := bind (diff_transform_matrix (length x)) (fun m => Ok (vecmat x m)).

(** * Averages *)

(** _rolling.py:4-20 [RollingAverage]: maxlen, deque (oldest first), value. *)
Record rolling : Type := mkRoll { ro_n : nat; ro_q : list R; ro_v : R }.
Definition rolling_new (n : nat) : rolling := mkRoll n [] 0.
Definition rolling_update (r : rolling) (x : R) : outcome rolling :=
  if Nat.eqb (length (ro_q r)) (ro_n r) then
    match ro_q r with
    | [] => Err EIndex            (* popleft from an empty deque: maxlen = 0 *)
    | y :: q => Ok (mkRoll (ro_n r) (q ++ [x]) (ro_v r + (x - y) / INR (ro_n r)))
    end
  else
    let q := ro_q r ++ [x] in Ok (mkRoll (ro_n r) q (ro_v r + (x - ro_v r) / INR (length q))).

(** _rolling.py:23-37 [ExponentialAverage]; maxlen 0 divides by zero (numpy floats aside, python raises). *)
Record expavg : Type := mkExp { xa_n : nat; xa_len : nat; xa_v : R }.
Definition expavg_new (n : nat) : expavg := mkExp n 0 0.
Definition expavg_update (e : expavg) (x : R) : outcome expavg :=
  let len := if Nat.ltb (xa_len e) (xa_n e) then S (xa_len e) else xa_len e in
  if Nat.eqb len 0 then Err ERuntime   (* ZeroDivisionError *)
  else Ok (mkExp (xa_n e) len (xa_v e + (x - xa_v e) / INR len)).

Fixpoint updates {T : Type} (u : T -> R -> outcome T) (t : T) (xs : list R) : outcome T :=
  match xs with [] => Ok t | x :: xs' => bind (u t x) (fun t' => updates u t' xs') end.

(** * Dictionaries *)

(** A python dict: keys are distinct; [dset] replaces or appends. *)
Definition dict (V : Type) : Type := list (nat * V).
Fixpoint dget {V} (k : nat) (d : dict V) : option V :=
  match d with [] => None | (k', v) :: d' => if Nat.eqb k k' then Some v else dget k d' end.
Fixpoint dset {V} (k : nat) (v : V) (d : dict V) : dict V :=
  match d with
  | [] => [(k, v)]
  | (k', v') :: d' => if Nat.eqb k k' then (k', v) :: d' else (k', v') :: dset k v d'
  end.
Definition dupdate {V} (d e : dict V) : dict V := fold_left (fun m kv => dset (fst kv) (snd kv) m) e d.

(** _array.py:693-719 [merge_dicts]; the warning about overlapping keys is left out. *)
Definition merge_dicts {V} (ds : list (dict V)) : dict V := fold_left (fun m d => dupdate m d) ds [].

(** Parameters of one module: the leaves of the pytree, flattened; equal structure is equal length. *)
Notation group := (list R).
Definition scale_group (w : R) (g : group) : group := map (fun x => w * x) g.
Fixpoint add_groups (a b : group) : group := match a, b with x :: a', y :: b' => (x + y) :: add_groups a' b' | _, _ => [] end.
(** lambda *x: sum(x), starting at 0. *)
Definition sum_groups (gs : list group) : group := match gs with [] => [] | g :: _ => fold_left add_groups gs (map (fun _ => 0) g) end.

Definition has_key {V} (k : nat) (d : dict V) : bool := match dget k d with Some _ => true | None => false end.
Definition count_key {V} (k : nat) (ps : list (dict V)) : nat := length (filter (has_key k) ps).

(** _array.py:911-939: the loop body for key [k].  Lines 909-914 count the keys and skip those with count < 2. *)
Definition sync_key (weights : list R) (ps : list (dict group)) (k : nat) : outcome (list (dict group)) :=
  if Nat.ltb (count_key k ps) 2 then Ok ps
  else
    let shared := flat_map (fun p => match dget k p with Some g => [g] | None => [] end) ps in
    if negb (forallb (fun g => Nat.eqb (length g) (length (hd [] shared))) shared) then Err EAssertion
    else
      let rel := flat_map (fun wp => if has_key k (snd wp) then [fst wp] else []) (combine weights ps) in
      let scale := rsum rel in
      if Rlt_dec 0 scale then
        let weighted := map (fun wg => scale_group (fst wg / scale) (snd wg)) (combine rel shared) in
        let agg := sum_groups weighted in
        Ok (map (fun p => if has_key k p then dset k agg p else p) ps)
      else Err EAssertion.
Fixpoint sync_keys (weights : list R) (ps : list (dict group)) (ks : list nat) : outcome (list (dict group)) :=
  match ks with [] => Ok ps | k :: ks' => bind (sync_key weights ps k) (fun ps' => sync_keys weights ps' ks') end.

(** Distinct keys in order of first occurrence, as a Counter lists them. *)
Fixpoint distinct (l : list nat) : list nat :=
  match l with [] => [] | k :: l' => k :: filter (fun j => negb (Nat.eqb j k)) (distinct l') end.

(** _array.py:874-941 [sync_shared_params]; weights None is a list of ones. *)
Definition sync_shared_params (ps : list (dict group)) (weights : option (list R)) : outcome (list (dict group)) :=
  if Nat.ltb (length ps) 2 then Ok ps
  else
    let w := match weights with Some w => w | None => map (fun _ => 1) ps end in
    if negb (Nat.eqb (length w) (length ps)) then Err EValue
    else sync_keys w ps (distinct (flat_map (map fst) ps)).

(** * Quantile fractions *)

Fixpoint cumsum_from (acc : R) (l : list R) : list R := match l with [] => [] | x :: l' => (acc + x) :: cumsum_from (acc + x) l' end.
(** _quantile_funcs.py:13-37 [quantiles_uniform], one row; [us] are the uniform draws. *)
Definition quantiles_uniform (us : list R) : list R := cumsum_from 0 (map (fun u => u / rsum us) us).
(** _quantile_funcs.py:40-60 [quantiles], one row. *)
Definition quantiles (n : nat) : list R := map (fun k => INR k / INR n) (seq 0 n).

(** * argmax with random tie breaking *)

Fixpoint rmax_list (x : R) (l : list R) : R := match l with [] => x | y :: l' => rmax_list (Rmax x y) l' end.
(** jnp.argmax: the first maximal position. *)
Fixpoint first_argmax (l : list R) (k best : nat) (bv : R) : nat :=
  match l with
  | [] => best
  | y :: l' => if Rlt_dec bv y then first_argmax l' (S k) k y else first_argmax l' (S k) best bv
  end.
Definition jnp_argmax (l : list R) : nat := match l with [] => 0%nat | x :: l' => first_argmax l' 1 0 x end.
(** _array.py:43-76 [argmax] on a vector (jnp.max of an empty array: ValueError).  jax.random.categorical is the argmax of
    the logits plus gumbel noise [gs]. *)
Definition argmax (arr gs : list R) : outcome nat :=
  match arr with
  | [] => Err EValue
  | x :: l => let m := rmax_list x l in
              let logits := map (fun y => if Req_EM_T y m then 50 else -50) arr in
              Ok (jnp_argmax (map (fun lg => fst lg + snd lg) (combine logits gs)))
  end.
(** _array.py:79-108 [argmin]. *)
Definition argmin (arr gs : list R) : outcome nat := argmax (map Ropp arr) gs.

(** * _safe_sample *)

(** _array.py:806-810: one component of a sample from a Box; [u] is the uniform draw. *)
Definition clip (x lo hi : R) : R := Rmin (Rmax x lo) hi.
Definition rsign (x : R) : R := if Rlt_dec 0 x then 1 else if Rlt_dec x 0 then -1 else 0.
Definition safe_sample_box (low high u : R) : R :=
  let lo := clip low (- 1000000000) 1000000000 in
  let hi := clip high (- 1000000000) 1000000000 in
  let x := lo + u * (hi - lo) in
  rsign x * ln (1 + Rabs x).

(** _array.py:796-797: [k] is the draw of rnd.randint(n). *)
Definition safe_sample_discrete (k : Z) : Z := k.

(** _quantile_funcs.py:64-95 [quantile_cos_embedding] of one fraction. *)
Definition quantile_cos_embedding (tau : R) (n : nat) : list R := map (fun i => cos (INR i * PI * tau)) (seq 1 n).
